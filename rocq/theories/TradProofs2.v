(** Migration of a distributed traditional graph: all parts together. *)
From Verif Require Import Base GraphModel CsrProofs ConstructProofs GraphSpec AccessProofs AccessProofs2 CountProofs GraphTop GraphTop2 GraphTop3 Comm TagModel TagProps MigrateModel MigrateSpec MigrateProofs1 MigrateProofs2 MigrateProofs3 MigrateProofs4 MigrateProofs5 TradSpec TradProofs1.

(* ---------------- lists ---------------- *)
Lemma tfilter_le X (f : X -> bool) l : length (filter f l) <= length l.
Proof. induction l as [|a l IH]; cbn; auto. destruct (f a); cbn; lia. Qed.
Lemma filter_group X (k : X -> nat) (P : X -> bool) (l : list X) n : (forall x, In x l -> P x = true -> k x < n) ->
  Permutation (flat_map (fun j => filter (fun x => Nat.eqb (k x) j && P x) l) (seq 0 n)) (filter P l).
Proof.
  induction l as [|a l IH]; intros H.
  - cbn. induction (seq 0 n); cbn; auto.
  - specialize (IH ltac:(intros; apply H; cbn; auto)).
    cbn [filter]. destruct (P a) eqn:Pa.
    + pose proof (H a (or_introl eq_refl) Pa) as L.
      assert (G : forall js, NoDup js -> Permutation (flat_map (fun j => if Nat.eqb (k a) j && true then a :: filter (fun x => Nat.eqb (k x) j && P x) l else filter (fun x => Nat.eqb (k x) j && P x) l) js)
         ((if existsb (Nat.eqb (k a)) js then [a] else []) ++ flat_map (fun j => filter (fun x => Nat.eqb (k x) j && P x) l) js)).
      { clear. induction js as [|j js IH]; intros ND; [auto|]. inversion ND; subst. cbn [flat_map existsb]. rewrite andb_true_r. destruct (Nat.eqb_spec (k a) j) as [E|N].
        - cbn [orb app]. constructor. apply Permutation_app_head.
          replace (existsb (Nat.eqb (k a)) js) with false in IH; [now apply IH|]. symmetry. apply not_true_iff_false. intros X0. apply existsb_exists in X0 as (y & Hy & Ey). apply Nat.eqb_eq in Ey. subst. contradiction.
        - cbn [orb]. etransitivity; [apply Permutation_app_head, IH; auto|]. rewrite !app_assoc. apply Permutation_app_tail, Permutation_app_comm. }
      specialize (G (seq 0 n) (seq_NoDup _ _)). replace (existsb (Nat.eqb (k a)) (seq 0 n)) with true in G.
      * etransitivity; [exact G|]. cbn [app]. constructor. exact IH.
      * symmetry. apply existsb_exists. exists (k a). split; [apply in_seq; lia|apply Nat.eqb_refl].
    + etransitivity; [|exact IH]. clear. induction (seq 0 n) as [|j js IH]; [auto|]. cbn [flat_map]. rewrite andb_false_r. now apply Permutation_app_head.
Qed.
Lemma filter_union X (P Q R : X -> bool) l : (forall x, In x l -> R x = (P x || Q x)%bool /\ (P x && Q x)%bool = false) ->
  Permutation (filter P l ++ filter Q l) (filter R l).
Proof.
  induction l as [|a l IH]; intros H; auto. specialize (IH ltac:(intros; apply H; cbn; auto)). destruct (H a (or_introl eq_refl)) as (E & D). cbn [filter]. rewrite E.
  destruct (P a), (Q a); cbn [orb app]; try discriminate; auto. etransitivity; [symmetry; apply Permutation_middle|]. now constructor.
Qed.
Lemma perm_filter X (P : X -> bool) l l' : Permutation l l' -> Permutation (filter P l) (filter P l').
Proof. induction 1; cbn; auto; [destruct (P x); auto|destruct (P x), (P y); auto; constructor|etransitivity; eauto]. Qed.
Lemma filter_filter' X (P Q : X -> bool) l : filter P (filter Q l) = filter (fun x => Q x && P x)%bool l.
Proof. induction l as [|a l IH]; auto. cbn [filter]. destruct (Q a); cbn [filter andb]; [destruct (P a); now rewrite IH|exact IH]. Qed.
Lemma perm_pin2 A B : Permutation (map pin2 A) (map pin2 B) -> Permutation A B.
Proof.
  intros H. apply Permutation_map_inv in H as (C & E & P). assert (A = C); [|subst; now symmetry].
  clear P. revert C E. induction A as [|a A IH]; intros [|c C] E; try discriminate; auto. cbn [map] in E. injection E as E1 E2 E3. f_equal; [apply pin2_inj; unfold pin2; congruence|now apply IH].
Qed.
Lemma addressed_group M N (q : nat) (sent : list (list (Z * M))) (f : M -> N) (X : nat -> list N) :
  (forall j ms, nth_error sent j = Some ms -> Permutation (map (fun m => f (snd m)) (filter (fun m => Z.eqb (fst m) (Z.of_nat q)) ms)) (X j)) ->
  Permutation (map (fun m => f (snd m)) (addressed q sent)) (flat_map X (seq 0 (length sent))).
Proof.
  unfold addressed. assert (G : forall l k, (forall j ms, nth_error l j = Some ms -> Permutation (map (fun m => f (snd m)) (filter (fun m => Z.eqb (fst m) (Z.of_nat q)) ms)) (X (k + j))) ->
    Permutation (map (fun m => f (snd m)) (flat_map (fun pm : nat * list (Z * M) => map (fun m => (Z.of_nat (fst pm), snd m)) (filter (fun m => Z.eqb (fst m) (Z.of_nat q)) (snd pm))) (combine (seq k (length l)) l)))
      (flat_map X (seq k (length l)))).
  { induction l as [|ms l IH]; intros k H; cbn [length seq combine flat_map]; auto. rewrite map_app, map_map. cbn [fst snd]. apply Permutation_app.
    - pose proof (H 0 ms eq_refl) as H0. now rewrite Nat.add_0_r in H0.
    - apply IH. intros j ms' Hj. replace (S k + j) with (k + S j) by lia. now apply H. }
  intros H. apply (G sent 0). exact H.
Qed.

(** construction of the migrated part *)
Lemma tpd_valid w : NoDup (map fst (w_verts w)) -> length (w_edges w) <= 7 -> Forall (Forall (fun m => length (me_pins m) = 2)) (w_edges w) ->
  valid_input false (pd_verts (pd_of w)) (pd_vws (pd_of w)) (pd_tys (pd_of w)).
Proof.
  intros ND L W. cbn [pd_of pd_verts pd_vws pd_tys]. split; [auto|]. split; [now rewrite !map_length|]. split; [now rewrite map_length|].
  intros es ws Hin. apply in_map_iff in Hin as (ms & E & Hms). inversion E; subst. split; [right; now rewrite !map_length|]. intros _ e He.
  apply in_map_iff in He as (m & <- & Hm). cbn [snd]. rewrite Forall_forall in W. specialize (W ms Hms). rewrite Forall_forall in W. auto.
Qed.
Lemma tmig_build w r : hyper (mp_g (w_part w)) = false -> self (mp_g (w_part w)) = Z.of_nat r ->
  NoDup (map fst (w_verts w)) -> length (w_edges w) <= 7 -> Forall (Forall wfme) (w_edges w) -> Forall (Forall (fun m => length (me_pins m) = 2)) (w_edges w) ->
  exists s', mig_build w = Some s' /\ built_from false r (pd_of w) s'.
Proof.
  intros HH HS ND L W W2. pose proof (tpd_valid w ND L W2) as HV.
  destruct (construction_total (Z.of_nat r) false _ _ _ (pd_owns (pd_of w)) HV) as (g1 & _ & g' & E').
  exists (g', ainit (pd_oo (pd_of w))). split; [|split; [exact E'|reflexivity]].
  unfold mig_build. rewrite HH, HS.
  replace (length (w_verts w)) with (length (map fst (w_verts w))) by (now rewrite map_length).
  rewrite constructVerts_arr_vec by (now rewrite !map_length).
  unfold build_part, build_graph in E'. cbn [pd_of pd_verts pd_vws pd_tys pd_owns] in E'.
  destruct (constructVerts (Z.of_nat r) false (map fst (w_verts w)) (map (fun v => fst (snd v)) (w_verts w))) as [g0|]; [|discriminate]. cbn [obind] in *.
  rewrite (foldM_map_l _ ty_of) in E'.
  match goal with |- context [foldM ?f (w_edges w) g0] => replace (foldM f (w_edges w) g0) with (foldM (fun s x => call_constructEdges s (ty_of x)) (w_edges w) g0) end.
  - destruct (foldM _ (w_edges w) g0) as [g2|]; [|discriminate]. cbn [obind] in *. rewrite E'. reflexivity.
  - apply foldM_ext_in. intros g es Hes. rewrite Forall_forall in W. specialize (W es Hes). rewrite Forall_forall in W.
    unfold call_constructEdges, ty_of. cbn [fst snd]. unfold pins_of. rewrite !map_map. cbn [fst snd].
    assert (Ed : map me_deg es = map (fun x => length (me_pins x)) es) by (apply map_ext_in; intros m Hm; now apply W).
    rewrite Ed. symmetry. replace (length es) with (length (map me_id es)) by (now rewrite map_length).
    rewrite constructEdges_arr_vec; [reflexivity|now rewrite !map_length| |now rewrite !map_length].
    clear. unfold nsum. induction es as [|e es IH]; auto. cbn [map concat fold_right]. now rewrite app_length, IH.
Qed.
(** without the edge ids every arriving record is appended *)
Lemma trecv_fold me l : forall es m, fold_left (recv_one false me) l (es, m) = (es ++ map snd l, fold_left (note_owners me) (map snd l) m).
Proof.
  induction l as [|(s, e) l IH]; intros es m; cbn [fold_left map]; [now rewrite app_nil_r|]. unfold recv_one at 2. cbn [fst snd andb]. rewrite IH. cbn [snd]. now rewrite <- app_assoc.
Qed.

(** ** updates for unknown vertices
    vtx_mapping[gid] inserts 0, the number of a local vertex, for a vertex this part does not know; only the lookup
    table changes, which migrate does not read afterwards *)
Definition with_vm (vm : zmap nat) (s : mpart) : mpart := mkMP (with_owners (mp_g s) vm (owners (mp_g s))) (mp_oo s) (mp_plan s).
Definition with_vmw (vm : zmap nat) (w : mwork) : mwork := mkMW (with_vm vm (w_part w)) (w_verts w) (w_edges w) (w_gown w).
Lemma vm_setup vm fuel nt s : mig_setup fuel nt (with_vm vm s) = option_map (with_vmw vm) (mig_setup fuel nt s).
Proof.
  destruct s as [g oo plan]. unfold mig_setup, with_vm. cbn [mp_g mp_oo mp_plan].
  change (kept_verts fuel (mkMP (with_owners g vm (owners g)) oo plan)) with (kept_verts fuel (mkMP g oo plan)).
  destruct (kept_verts fuel (mkMP g oo plan)) as [vs|]; [|reflexivity]. cbn [obind].
  change (kept_edges fuel (mkMP (with_owners g vm (owners g)) oo plan)) with (kept_edges fuel (mkMP g oo plan)).
  destruct (mapM (kept_edges fuel (mkMP g oo plan)) (seq 0 nt)) as [es|]; reflexivity.
Qed.
Lemma vm_vsend vm w : vert_send (with_vmw vm w) = vert_send w. Proof. destruct w as [[g oo plan] vs es m]. reflexivity. Qed.
Lemma vm_esend vm fuel w : edge_send fuel (with_vmw vm w) = edge_send fuel w. Proof. destruct w as [[g oo plan] vs es m]. reflexivity. Qed.
Lemma vm_build vm w : mig_build (with_vmw vm w) = mig_build w. Proof. destruct w as [[g oo plan] vs es m]. reflexivity. Qed.

Lemma upd_recv_gen g verts wts ghosts tys ow oo plan : Rep g verts wts ghosts tys -> RepO g ghosts ow ->
  forall arr, (forall s v x, In (s, (v, x)) arr -> ~ In v (verts ++ ghosts) -> verts <> []) ->
  exists g' vm, upd_recv (mkMP g oo plan) arr = Some (with_vm vm (mkMP g' oo plan)) /\ Rep g' verts wts ghosts tys /\
    RepO g' ghosts (fun v => last_val v arr (ow v)) /\ hyper g' = hyper g /\ self g' = self g.
Proof.
  intros HR HO arr H. unfold upd_recv. cbn [mp_g mp_oo mp_plan].
  set (vok := fun vm : zmap nat => forall v, if in_dec Z.eq_dec v (verts ++ ghosts) then zfind vm v = Some (idx (verts ++ ghosts) v) else zfind vm v = None \/ zfind vm v = Some 0).
  assert (V0 : vok (vmap g)).
  { intros v. destruct (in_dec Z.eq_dec v (verts ++ ghosts)) as [I|N].
    - apply (rp_vm _ _ _ _ _ HR). now apply idx_nth.
    - left. destruct (zfind (vmap g) v) as [l|] eqn:E; auto. exfalso. apply (rp_vm _ _ _ _ _ HR) in E. apply nth_error_In in E. contradiction. }
  assert (G : forall g ow vm, Rep g verts wts ghosts tys -> RepO g ghosts ow -> vok vm ->
     exists g' vm', foldM upd_one arr (with_owners g vm (owners g)) = Some (with_owners g' vm' (owners g')) /\ Rep g' verts wts ghosts tys /\
       RepO g' ghosts (fun v => last_val v arr (ow v)) /\ hyper g' = hyper g /\ self g' = self g).
  { clear g ow HR HO V0. induction arr as [|(s, (v, x)) arr IH]; intros g ow vm HR HO HV.
    - exists g, vm. cbn. auto.
    - cbn [foldM]. specialize (IH ltac:(intros s' v' x' Hin; apply (H s' v' x'); cbn; auto)).
      pose proof (HV v) as Hv. destruct (in_dec Z.eq_dec v (verts ++ ghosts)) as [I|N].
      + assert (E1 : upd_one (with_owners g vm (owners g)) (s, (v, x)) =
          if nlv g <=? idx (verts ++ ghosts) v then ow' <- aset (owners g) (idx (verts ++ ghosts) v - nlv g) x ;; Some (with_owners g vm ow') else Some (with_owners g vm (owners g))).
        { unfold upd_one. cbn [snd with_owners vmap]. rewrite Hv. reflexivity. }
        rewrite E1. rewrite (rp_nlv _ _ _ _ _ HR). destruct (Nat.leb_spec (length verts) (idx (verts ++ ghosts) v)) as [Lg|Lg].
        * pose proof (idx_nth _ _ I) as En.
          assert (Lx : idx (verts ++ ghosts) v < length verts + length ghosts) by (rewrite <- app_length; now apply idx_lt).
          rewrite aset_some by (rewrite HO, ainit_length, map_length; lia). cbn [obind].
          set (g2 := with_owners g (vmap g) (upd (owners g) (idx (verts ++ ghosts) v - length verts) (Some x))).
          destruct (IH g2 (fun w => if Z.eqb v w then x else ow w) vm) as (g' & vm' & E' & R' & O' & Hh & Hs); auto.
          -- destruct HR. constructor; auto.
          -- unfold RepO. cbn [g2 with_owners owners]. rewrite HO.
             apply nth_error_ext. intros i. unfold ainit. rewrite nth_error_map, nth_error_map.
             set (j := idx (verts ++ ghosts) v - length verts) in *.
             assert (Ej : nth_error ghosts j = Some v) by (rewrite nth_error_app2 in En by auto; exact En).
             assert (NDg : NoDup ghosts) by (pose proof (rp_nd _ _ _ _ _ HR) as ND; apply NoDup_app_iff in ND; tauto).
             destruct (Nat.eq_dec j i) as [<-|Ne].
             ++ rewrite nth_error_upd_eq by (rewrite !map_length; apply nth_error_Some; congruence). rewrite Ej. cbn. now rewrite Z.eqb_refl.
             ++ rewrite nth_error_upd_neq by auto. rewrite !nth_error_map. destruct (nth_error ghosts i) as [w|] eqn:Ew; auto. cbn.
                destruct (Z.eqb_spec v w) as [<-|]; auto. exfalso. apply Ne. eapply NoDup_nth_error_inj; eauto.
          -- exists g', vm'. split; [exact E'|]. split; [exact R'|]. split; [|split; [rewrite Hh; reflexivity|rewrite Hs; reflexivity]].
             unfold RepO in *. rewrite O'. reflexivity.
        * cbn [obind]. destruct (IH g ow vm HR HO HV) as (g' & vm' & E' & R' & O' & Hh & Hs). exists g', vm'. split; [exact E'|]. split; [exact R'|]. split; [|auto].
          unfold RepO in *. rewrite O'. f_equal. apply map_ext_in. intros w Hw. cbn [last_val fold_left fst snd]. destruct (Z.eqb_spec v w) as [<-|]; auto.
          exfalso. pose proof (idx_ghost _ _ _ _ _ HR v Hw). lia.
      + assert (Nz : nlv g <> 0) by (rewrite (rp_nlv _ _ _ _ _ HR); intros Z0; apply (H s v x (or_introl eq_refl) N); now apply length_zero_iff_nil).
        assert (E1 : exists vm2, upd_one (with_owners g vm (owners g)) (s, (v, x)) = Some (with_owners g vm2 (owners g)) /\ vok vm2).
        { unfold upd_one. cbn [snd with_owners vmap nlv owners]. destruct Hv as [Hv|Hv]; rewrite Hv; (destruct (Nat.leb_spec (nlv g) 0); [lia|]).
          - eexists. split; [reflexivity|]. intros w. unfold zset. cbn [zfind]. specialize (HV w). destruct (in_dec Z.eq_dec w (verts ++ ghosts)).
            + destruct (Z.eqb_spec w v) as [->|]; [contradiction|exact HV]. + destruct (Z.eqb w v); auto.
          - exists vm. split; [reflexivity|exact HV]. }
        destruct E1 as (vm2 & -> & HV2). cbn [obind]. destruct (IH g ow vm2 HR HO HV2) as (g' & vm' & E' & R' & O' & Hh & Hs).
        exists g', vm'. split; [exact E'|]. split; [exact R'|]. split; [|auto].
        unfold RepO in *. rewrite O'. f_equal. apply map_ext_in. intros w Hw. cbn [last_val fold_left fst snd]. destruct (Z.eqb_spec v w) as [<-|]; auto.
        exfalso. apply N, in_app_iff. auto. }
  destruct (G g ow (vmap g) HR HO V0) as (g' & vm & E & R & O & Hh & Hs). exists g', vm.
  replace (with_owners g (vmap g) (owners g)) with g in E by (destruct g; reflexivity). rewrite E. cbn [obind]. auto.
Qed.

Section TG.
Variables (own own' : Z -> nat) (V : list (Z * (Z * Z))) (A : list arc) (w0 : Z).
Variables (ps : list pdesc) (calls : list (list plan_op)) (sts : list mpart) (fuel : nat).
Hypothesis HD : tdistributed own V A w0 ps.
Hypothesis HRdy : ready false fuel ps calls sts.
Hypothesis HMv : moved_to own' ps calls.
Hypothesis HF : tfuel fuel V A.
Notation n := (length ps).
Notation F := (fun v => Z.of_nat (own' v)).
Notation gh p := (ghosts_of (pd_verts p) (pd_tys p)).

Lemma th_part r p : nth_error ps r = Some p -> tholds own V A w0 r p.
Proof. intros H. destruct HD as ((_ & _ & H') & _). now apply H'. Qed.
Lemma th_A a : In a A -> In (fst a) (map fst V) /\ In (snd a) (map fst V) /\ fst a <> snd a.
Proof. destruct HD as (((_ & H) & _) & _). apply H. Qed.
Lemma th_nodup : NoDup (map fst V). Proof. apply HD. Qed.
Lemma th_own v : In v (map fst V) -> own v < n. Proof. destruct HD as ((_ & H & _) & _). apply H. Qed.
Lemma tvr_fst r p : nth_error ps r = Some p -> map fst (vrecs p) = pd_verts p.
Proof.
  intros H. destruct (th_part r p H) as ((_ & Lw & _) & Lo & _). unfold vrecs. apply map_fst_combine. rewrite combine_length. unfold vweights.
  rewrite app_length, repeat_length. lia.
Qed.
Lemma tin_vrecs r p x : nth_error ps r = Some p -> In x (vrecs p) <-> In x V /\ own (fst x) = r.
Proof.
  intros H. destruct (th_part r p H) as (_ & _ & Pm & _). split.
  - intros Hx. apply (Permutation_in _ Pm) in Hx. apply filter_In in Hx as (Hx & E). apply Nat.eqb_eq in E. auto.
  - intros (Hx & E). apply (Permutation_in _ (Permutation_sym Pm)). apply filter_In. split; auto. now apply Nat.eqb_eq.
Qed.
Lemma tin_verts r p v : nth_error ps r = Some p -> In v (pd_verts p) <-> In v (map fst V) /\ own v = r.
Proof.
  intros H. rewrite <- (tvr_fst r p H). split.
  - intros Hv. apply in_map_iff in Hv as (x & <- & Hx). apply (tin_vrecs r p x H) in Hx as (Hx & E). split; auto. now apply in_map.
  - intros (Hv & E). apply in_map_iff in Hv as (x & <- & Hx). apply in_map. apply (tin_vrecs r p x H). auto.
Qed.
Lemma tpart_of_v v : In v (map fst V) -> exists p, nth_error ps (own v) = Some p /\ In v (pd_verts p).
Proof.
  intros Hv. pose proof (th_own v Hv) as L. destruct (nth_error ps (own v)) as [p|] eqn:E; [|apply nth_error_None in E; lia].
  exists p. split; auto. apply (tin_verts _ _ v E). auto.
Qed.
Lemma th_range v : In v (map fst V) -> own' v < n.
Proof.
  intros Hv. destruct (tpart_of_v v Hv) as (p & Hp & Hin). pose proof (th_own v Hv) as L. apply In_nth_error in Hin as (l & Hl).
  destruct HRdy as (Ls & Lc & HRr). destruct (nth_error calls (own v)) as [cs|] eqn:Ec; [|apply nth_error_None in Ec; lia].
  destruct (nth_error sts (own v)) as [s|] eqn:Es; [|apply nth_error_None in Es; lia].
  specialize (HMv _ _ _ _ _ Hp Ec Hl). destruct (planned cs l) as [d|] eqn:Ep; [|lia].
  destruct (HRr _ _ _ _ Hp Ec Es) as (_ & _ & Ho). apply planned_in in Ep. apply Ho in Ep. destruct Ep as (_ & Hd). lia.
Qed.
Lemma tverts_fuel r p : nth_error ps r = Some p -> length (pd_verts p) < fuel.
Proof.
  intros H. rewrite <- (tvr_fst r p H), map_length. destruct (th_part r p H) as (_ & _ & Pm & _). rewrite (Permutation_length Pm).
  destruct HF as (L & _). pose proof (tfilter_le _ (fun v => Nat.eqb (own (fst v)) r) V). lia.
Qed.
(** the edges of part p *)
Record tedges (r : nat) (p : pdesc) (es : list (Z * list Z)) (ws : list Z) : Prop := mkTE {
  te_t : nth_error (map eff_ty (pd_tys p)) 0 = Some (es, ws);
  te_two : forall e, In e es -> length (snd e) = 2;
  te_arcs : Permutation (map arc_of es) (filter (fun a => Nat.eqb (own (fst a)) r) A);
  te_src : local_sources (pd_verts p) es;
  te_loop : forall e, In e es -> fst (arc_of e) <> snd (arc_of e);
  te_w : Forall (eq w0) ws;
  te_len : length es < fuel }.
Lemma ttype0 r p : nth_error ps r = Some p -> exists es ws, tedges r p es ws.
Proof.
  intros H. destruct (th_part r p H) as ((_ & _ & _ & HV) & _ & _ & es & ws & Et & Pa & Fw).
  exists es, (eff_wgts ws (length es)).
  assert (Two : forall e, In e es -> length (snd e) = 2) by (intros e He; apply (HV es ws); [rewrite Et; cbn; auto|auto|auto]).
  assert (Ep : map snd es = map pin2 (map arc_of es)).
  { rewrite map_map. apply map_ext_in. intros (gid, q) He. specialize (Two _ He). unfold arc_of, pin2. cbn [snd] in *. destruct q as [|u [|w [|]]]; try discriminate. reflexivity. }
  assert (PA : Permutation (map arc_of es) (filter (fun a => Nat.eqb (own (fst a)) r) A)) by (apply perm_pin2; rewrite <- Ep; exact Pa).
  assert (In' : forall e, In e es -> In (arc_of e) A /\ own (fst (arc_of e)) = r).
  { intros e He. assert (Hin : In (arc_of e) (filter (fun a => Nat.eqb (own (fst a)) r) A)) by (apply (Permutation_in _ PA); now apply in_map).
    apply filter_In in Hin as (Hin & E). apply Nat.eqb_eq in E. auto. }
  constructor; auto.
  - rewrite Et. reflexivity.
  - intros e u w He Ew. destruct (In' e He) as (Ha & Eo). unfold arc_of in *. rewrite Ew in *. cbn [fst] in *. apply (tin_verts r p u H). split; [apply (th_A _ Ha)|auto].
  - intros e He. apply th_A. now apply In'.
  - destruct ws; exact Fw.
  - pose proof (Permutation_length PA) as LP. rewrite map_length in LP. destruct HF as (_ & L). pose proof (tfilter_le _ (fun a => Nat.eqb (own (fst a)) r) A). unfold edge_input, arc in *. lia.
Qed.

(** state of part r between the steps *)
Definition TPS (pown : nat -> Z -> Z -> Prop) (r : nat) (p : pdesc) (s : mpart) : Prop := exists g plan mv ow,
  s = mkMP g (ainit (pd_oo p)) plan /\
  Rep g (pd_verts p) (vweights p) (gh p) (map eff_ty (pd_tys p)) /\
  RepO g (gh p) ow /\ hyper g = false /\ self g = Z.of_nat r /\
  PlanV (pd_verts p) (gh p) plan mv own' /\
  (forall v, In v mv <-> In v (pd_verts p) /\ own' v <> r) /\
  forall v, In v (gh p) -> pown r v (ow v).
Definition town0 (r : nat) (v o : Z) : Prop := o = Z.of_nat (own v).
(** after updateGhostOwners: new for the ghosts with an out-neighbour on this part, otherwise the old home *)
Definition town1 (r : nat) (v o : Z) : Prop :=
  o = Z.of_nat (if existsb (fun a => Z.eqb (fst a) v && Nat.eqb (own (snd a)) r) A then own' v else own v).

Lemma t_cleanup r p s : nth_error ps r = Some p -> nth_error sts r = Some s -> exists s', mig_cleanup fuel s = Some s' /\ TPS town0 r p s'.
Proof.
  intros Hp Hs. pose proof (th_part r p Hp) as (HV & Lo & _). pose proof (proj2 HD p (nth_error_In _ _ Hp)) as HG. destruct HRdy as (Ls & Lc & HRr).
  assert (L : r < n) by (apply nth_error_Some; congruence).
  destruct (nth_error calls r) as [cs|] eqn:Ec; [|apply nth_error_None in Ec; lia].
  destruct (HRr _ _ _ _ Hp Ec Hs) as ((HB & Eo) & (p0 & E0' & Em) & Hok). destruct s as [g oo plan]. cbn [mp_g mp_oo mp_plan fst snd] in *. subst oo.
  destruct (part_rep _ _ _ _ _ _ _ HV HB) as (R & RO & Hh & Hs').
  destruct (plan_run _ _ _ _ _ g cs fuel (p_constructed _ _ _ _ _ _ _ HV HB) (tverts_fuel r p Hp)) as (q0 & q & A1 & A2 & A3).
  { intros o Ho. apply Hok in Ho. destruct o; cbn in *; [|auto]. destruct Ho. split; auto. lia. }
  assert (q0 = p0) by congruence. subst q0. assert (q = plan) by congruence. subst q.
  destruct (cleanup_ok g _ _ _ _ r (pd_oo p) R Hs' Lo fuel plan (fm_run cs) own' (tverts_fuel r p Hp) A3 (fm_run_nodup cs)) as (plan' & mv & Ecl & PV & MV).
  { intros l v Hl. rewrite planned_get. exact (HMv _ _ _ _ _ Hp Ec Hl). }
  exists (mkMP g (ainit (pd_oo p)) plan'). split; [exact Ecl|]. exists g, plan', mv, (look (pd_owns p)).
  split; [reflexivity|]. split; [exact R|]. split; [exact RO|]. split; [auto|]. split; [auto|]. split; [exact PV|]. split; [exact MV|].
  intros v Hv. unfold town0, look. now rewrite (HG v Hv).
Qed.
Lemma t_sarcs r p es ws g : tedges r p es ws -> Rep g (pd_verts p) (vweights p) (gh p) (map eff_ty (pd_tys p)) -> hyper g = false ->
  Permutation (sarcs g (pd_verts p) (gh p) es) (filter (fun a => Nat.eqb (own (fst a)) r) A).
Proof.
  intros TE R Hh. etransitivity; [|apply (te_arcs _ _ _ _ TE)].
  apply (sarcs_perm g _ (vweights p) _ _ 0 (pd_verts p) R Hh eq_refl es ws (te_t _ _ _ _ TE) (te_two _ _ _ _ TE) (te_src _ _ _ _ TE)).
Qed.
Lemma t_sarcs_in r p es ws g a : tedges r p es ws -> Rep g (pd_verts p) (vweights p) (gh p) (map eff_ty (pd_tys p)) -> hyper g = false ->
  In a (sarcs g (pd_verts p) (gh p) es) <-> In a A /\ own (fst a) = r.
Proof.
  intros TE R Hh. pose proof (t_sarcs r p es ws g TE R Hh) as P. split.
  - intros H. apply (Permutation_in _ P), filter_In in H as (H & E). apply Nat.eqb_eq in E. auto.
  - intros (H & E). apply (Permutation_in _ (Permutation_sym P)), filter_In. split; auto. now apply Nat.eqb_eq.
Qed.
(** every end of an arc on this part is one of its vertices or ghosts *)
Lemma t_known r p es ws g a : tedges r p es ws -> Rep g (pd_verts p) (vweights p) (gh p) (map eff_ty (pd_tys p)) -> hyper g = false ->
  In a A -> own (fst a) = r -> In (fst a) (pd_verts p) /\ (In (snd a) (pd_verts p) \/ In (snd a) (gh p)).
Proof.
  intros TE R Hh Ha Eo. assert (Hs : In a (sarcs g (pd_verts p) (gh p) es)) by (apply (t_sarcs_in r p es ws g a TE R Hh); auto).
  apply (sarcs_in g _ (vweights p) _ _ 0 (pd_verts p) R Hh eq_refl es ws (te_t _ _ _ _ TE) (te_two _ _ _ _ TE) (te_src _ _ _ _ TE) (te_loop _ _ _ _ TE)) in Hs as (H1 & H2 & _).
  split; auto. now apply in_app_iff in H2.
Qed.
Lemma town0_now r p ow v : nth_error ps r = Some p -> (forall v, In v (gh p) -> town0 r v (ow v)) ->
  In v (pd_verts p) \/ In v (gh p) -> own_now (pd_verts p) ow r v = Z.of_nat (own v).
Proof.
  intros Hp Ho Hv. unfold own_now. destruct (memZ v (pd_verts p)) eqn:Em.
  - apply memZ_In, (tin_verts r p v Hp) in Em as (_ & ->). reflexivity.
  - destruct Hv as [Hv|Hv]; [apply memZ_In in Hv; congruence|]. now apply Ho.
Qed.
Lemma ts_upd_send r p s : nth_error ps r = Some p -> TPS town0 r p s ->
  exists ms, upd_send fuel s = Some ms /\ forall d x, In (d, x) ms <->
    exists v o, In (v, o) A /\ own v = r /\ own' v <> r /\ own o <> r /\ d = Z.of_nat (own o) /\ x = (v, Z.of_nat (own' v)).
Proof.
  intros Hp (g & plan & mv & ow & -> & R & RO & Hh & Hs & PV & MV & Hg). pose proof (th_part r p Hp) as (_ & Lo & _).
  destruct (ttype0 r p Hp) as (es & ws & TE).
  destruct (t_upd_send g _ _ _ _ ow r (pd_oo p) R RO Hh Hs Lo es ws (te_t _ _ _ _ TE) (te_two _ _ _ _ TE) (te_src _ _ _ _ TE) (te_loop _ _ _ _ TE) plan mv own' PV MV fuel (te_len _ _ _ _ TE)) as (ms & E & Hm).
  exists ms. split; [exact E|]. intros d x. rewrite Hm. split.
  - intros (v & o & Hv & Ha & Hne & -> & ->). apply (t_sarcs_in r p es ws g _ TE R Hh) in Ha as (Ha & Eo). cbn [fst] in Eo.
    destruct (t_known r p es ws g _ TE R Hh Ha Eo) as (_ & Ko). cbn [snd] in Ko. rewrite (town0_now r p ow o Hp Hg Ko) in *.
    apply MV in Hv as (Hv & Hd). exists v, o. repeat split; auto.
  - intros (v & o & Ha & Eo & Hd & Hne & -> & ->). destruct (t_known r p es ws g _ TE R Hh Ha Eo) as (Kv & Ko). cbn [fst snd] in *.
    exists v, o. rewrite (town0_now r p ow o Hp Hg Ko). repeat split; auto; [now apply MV|now apply (t_sarcs_in r p es ws g _ TE R Hh)|lia].
Qed.
Lemma tgh_iff r p v : nth_error ps r = Some p -> In v (gh p) <-> exists u, In (u, v) A /\ own u = r /\ own v <> r.
Proof.
  intros Hp. destruct HRdy as (Ls & Lc & HRr). assert (L : r < n) by (apply nth_error_Some; congruence).
  destruct (nth_error calls r) as [cs|] eqn:Ec; [|apply nth_error_None in Ec; lia].
  destruct (nth_error sts r) as [s|] eqn:Es; [|apply nth_error_None in Es; lia].
  destruct (HRr _ _ _ _ Hp Ec Es) as ((HB & _) & _). pose proof (th_part r p Hp) as (HV & _ & _ & es & ws & Et & Pa & _).
  pose proof (p_constructed _ _ _ _ _ _ _ HV HB) as HC.
  assert (PI : forall l, In l (map snd es) <-> exists a, In a A /\ own (fst a) = r /\ l = pin2 a).
  { intros l. split.
    - intros H. apply (Permutation_in _ Pa), in_map_iff in H as (a & <- & Ha). apply filter_In in Ha as (Ha & E). apply Nat.eqb_eq in E. eauto.
    - intros (a & Ha & E & ->). apply (Permutation_in _ (Permutation_sym Pa)), in_map, filter_In. split; auto. now apply Nat.eqb_eq. }
  split.
  - intros Hv. pose proof (c_ghost_not_local _ _ _ _ _ _ HC v Hv) as Nl.
    assert (Ha : In v (pd_verts p ++ gh p)) by (apply in_app_iff; auto).
    apply (c_gids_iff _ _ _ _ _ _ HC) in Ha as [|(ty & e & Hty & He & Hve)]; [contradiction|]. rewrite Et in Hty. destruct Hty as [<-|[]]. cbn [fst] in He.
    assert (Hl : In (snd e) (map snd es)) by (now apply in_map). apply PI in Hl as (a & Ha & Eo & El). rewrite El in Hve. unfold pin2 in Hve.
    destruct Hve as [<-|[<-|[]]]; [exfalso; apply Nl, (tin_verts r p _ Hp); split; [apply (th_A a Ha)|auto]|].
    exists (fst a). split; [now destruct a|]. split; auto. intros Er. apply Nl, (tin_verts r p _ Hp). split; [apply (th_A a Ha)|auto].
  - intros (u & Ha & Eo & Ne). assert (Hl : In (pin2 (u, v)) (map snd es)) by (apply PI; exists (u, v); auto).
    apply in_map_iff in Hl as (e & Ee & He).
    assert (Hin : In v (pd_verts p ++ gh p)).
    { apply (c_gids_iff _ _ _ _ _ _ HC). right. exists (es, ws), e. rewrite Et. split; [cbn; auto|]. split; [auto|]. rewrite Ee. cbn; auto. }
    apply in_app_iff in Hin as [Hl|]; auto. apply (tin_verts r p v Hp) in Hl as (_ & E). contradiction.
Qed.

Lemma ts_upd_recv r p s arr : nth_error ps r = Some p -> TPS town0 r p s ->
  (forall q x, In (q, x) arr <-> exists v o, In (v, o) A /\ q = Z.of_nat (own v) /\ own' v <> own v /\ own o <> own v /\ own o = r /\ x = (v, Z.of_nat (own' v))) ->
  exists s' vm, upd_recv s arr = Some (with_vm vm s') /\ TPS town1 r p s'.
Proof.
  intros Hp (g & plan & mv & ow & -> & R & RO & Hh & Hs & PV & MV & Hg) HA.
  destruct (upd_recv_gen g _ _ _ _ ow (ainit (pd_oo p)) plan R RO arr) as (g' & vm & E & R' & RO' & Hh' & Hs').
  { intros q v x Hin Nv. apply HA in Hin as (v' & o & Ha & _ & _ & _ & Eo & Ex). inversion Ex; subst v' x.
    intros Hl. assert (Hin : In o (pd_verts p)) by (apply (tin_verts r p o Hp); split; [apply (th_A (v, o) Ha)|auto]). rewrite Hl in Hin. destruct Hin. }
  exists (mkMP g' (ainit (pd_oo p)) plan), vm. split; [exact E|]. exists g', plan, mv, (fun v => last_val v arr (ow v)).
  split; [reflexivity|]. split; [exact R'|]. split; [exact RO'|]. split; [congruence|]. split; [congruence|]. split; [exact PV|]. split; [exact MV|].
  intros v Hv. unfold town1. apply (tgh_iff r p v Hp) in Hv as Hgh. destruct Hgh as (u & Hu & Eu & Ne).
  destruct (existsb (fun a => Z.eqb (fst a) v && Nat.eqb (own (snd a)) r) A) eqn:Ex.
  - apply existsb_exists in Ex as ((v', o) & Ha & Eo). cbn [fst snd] in Eo. apply andb_true_iff in Eo as (Ev & Eo). apply Z.eqb_eq in Ev. apply Nat.eqb_eq in Eo. subst v'.
    destruct (last_val_spec v arr (ow v)) as [(q & x & Hin & ->)|(N & ->)].
    + apply HA in Hin as (v' & o' & _ & _ & _ & _ & _ & Ex). inversion Ex; subst. reflexivity.
    + rewrite (Hg v Hv). f_equal. destruct (Nat.eq_dec (own' v) (own v)) as [|Nm]; auto. exfalso.
      apply (N (Z.of_nat (own v)) (Z.of_nat (own' v))). apply HA. exists v, o. repeat split; auto. lia.
  - destruct (last_val_spec v arr (ow v)) as [(q & x & Hin & ->)|(N & ->)]; [|exact (Hg v Hv)].
    exfalso. apply HA in Hin as (v' & o' & Ha & _ & _ & _ & Eo & Eq). inversion Eq; subst v' x.
    apply not_true_iff_false in Ex. apply Ex. apply existsb_exists. exists (v, o'). split; auto. cbn [fst snd]. rewrite Z.eqb_refl. now apply Nat.eqb_eq.
Qed.

(* ------- the local data ------- *)
Notation SYM := (symmetric_cut own A).
Definition kept_arc (r : nat) (a : arc) : bool := Nat.eqb (own (fst a)) r && (Nat.eqb (own' (fst a)) r && negb (Nat.eqb (own (snd a)) r && negb (Nat.eqb (own' (snd a)) r))).
Definition sent_arc (r q : nat) (a : arc) : bool := Nat.eqb (own (fst a)) r && (negb (Nat.eqb (own' (fst a)) (own (fst a))) && Nat.eqb (own' (fst a)) q).
Definition came_arc (q : nat) (a : arc) : bool := negb (Nat.eqb (own' (fst a)) (own (fst a))) && Nat.eqb (own' (fst a)) q.
Definition final_arc (r : nat) (a : arc) : bool := survives own own' a && Nat.eqb (own' (fst a)) r.
Definition good_rec (m : medge) : Prop := wfme m /\ length (me_pins m) = 2 /\ me_w m = w0.
Definition TWS (PV : list (Z * (Z * Z)) -> Prop) (PA : arc -> bool) (r : nat) (p : pdesc) (w : mwork) : Prop :=
  TPS town1 r p (w_part w) /\ PV (w_verts w) /\ exists es, w_edges w = [es] /\ Forall good_rec es /\
    Permutation (map me_pins es) (map pin2 (filter PA A)) /\
    (SYM -> agrees F (w_gown w) /\ Forall (covers F (Z.of_nat r) (w_gown w)) es).
Definition TW PV PA r p w' : Prop := exists vm w, w' = with_vmw vm w /\ TWS PV PA r p w.
Definition tkeptV r (p : pdesc) (l : list (Z * (Z * Z))) := l = filter (fun x => Nat.eqb (own' (fst x)) r) (vrecs p).
Definition tallV r (l : list (Z * (Z * Z))) := Permutation l (filter (fun x => Nat.eqb (own' (fst x)) r) V).

(** owners known on part r for the ends of its arcs *)
Lemma town1_now r p ow mv v a : nth_error ps r = Some p -> (forall v, In v mv <-> In v (pd_verts p) /\ own' v <> r) ->
  (forall v, In v (gh p) -> town1 r v (ow v)) -> SYM -> In a A -> own (fst a) = r -> In v (pin2 a) ->
  newown (pd_verts p) ow r mv own' v = F v.
Proof.
  intros Hp MV Hg SY Ha Eo Hv. assert (HvV : In v (map fst V)) by (destruct (th_A a Ha) as (H1 & H2 & _); destruct Hv as [<-|[<-|[]]]; auto).
  unfold newown. destruct (memZ v mv) eqn:Em; auto. unfold own_now. destruct (memZ v (pd_verts p)) eqn:El.
  - f_equal. destruct (Nat.eq_dec (own' v) r) as [|Ne]; auto. exfalso. apply memZ_In in El. assert (In v mv) by (apply MV; auto). apply memZ_In in H. congruence.
  - assert (Nr : own v <> r). { intros Er. assert (In v (pd_verts p)) by (apply (tin_verts r p v Hp); auto). apply memZ_In in H. congruence. }
    destruct Hv as [<-|[<-|[]]]; [congruence|].
    assert (Hgh : In (snd a) (gh p)) by (apply (tgh_iff r p _ Hp); exists (fst a); split; [now destruct a|auto]).
    rewrite (Hg _ Hgh). f_equal. destruct (SY a Ha ltac:(congruence)) as (x & Hx & Ex).
    replace (existsb (fun b => Z.eqb (fst b) (snd a) && Nat.eqb (own (snd b)) r) A) with true; auto. symmetry.
    apply existsb_exists. exists (snd a, x). split; auto. cbn [fst snd]. rewrite Z.eqb_refl. apply Nat.eqb_eq. congruence.
Qed.
Lemma moved_mem r p mv v : nth_error ps r = Some p -> (forall v, In v mv <-> In v (pd_verts p) /\ own' v <> r) -> In v (map fst V) ->
  memZ v mv = (Nat.eqb (own v) r && negb (Nat.eqb (own' v) r))%bool.
Proof.
  intros Hp MV Hv. apply eq_true_iff_eq. rewrite memZ_In, andb_true_iff, negb_true_iff, Nat.eqb_eq, Nat.eqb_neq, MV, (tin_verts r p v Hp). tauto.
Qed.
Lemma ts_setup r p s vm : nth_error ps r = Some p -> TPS town1 r p s -> exists w, mig_setup fuel 1 (with_vm vm s) = Some w /\ TW (tkeptV r p) (kept_arc r) r p w.
Proof.
  intros Hp HPS. pose proof HPS as (g & plan & mv & ow & Es & R & RO & Hh & Hs & PV & MV & Hg). pose proof (th_part r p Hp) as (HV & Lo & _).
  destruct (ttype0 r p Hp) as (es & ws & TE). rewrite vm_setup. subst s. unfold mig_setup.
  rewrite (kept_verts_ok g _ _ _ _ r (pd_oo p) R Hs Lo plan mv own' PV MV fuel (tverts_fuel r p Hp)). cbn [obind seq mapM].
  destruct (t_kept_edges g _ _ _ _ ow r (pd_oo p) R RO Hh Hs Lo es ws w0 (te_t _ _ _ _ TE) (te_two _ _ _ _ TE) (te_src _ _ _ _ TE) (te_loop _ _ _ _ TE) (te_w _ _ _ _ TE) plan mv own' PV fuel (te_len _ _ _ _ TE)) as (K & EK & WK & PK).
  { destruct HF. lia. }
  rewrite EK. cbn [obind option_map concat]. rewrite app_nil_r. eexists. split; [reflexivity|]. exists vm. eexists. split; [reflexivity|]. split; [exact HPS|].
  cbn [w_verts w_edges w_gown w_part mp_g]. split.
  { unfold tkeptV, vrecs. apply filter_ext_in. intros x Hxv. destruct (Nat.eqb_spec (own' (fst x)) r) as [Er|Ne].
    + apply negb_true_iff. destruct (memZ (fst x) mv) eqn:Em; auto. apply memZ_In, MV in Em. tauto.
    + apply negb_false_iff, memZ_In, MV. split; auto. rewrite <- (tvr_fst r p Hp). now apply in_map. }
  exists (map (Mk (own_now (pd_verts p) ow r)) K). split; [reflexivity|].
  assert (KA : forall x, In x K -> exists a, In a A /\ own (fst a) = r /\ snd (fst x) = pin2 a /\ memZ (fst a) mv = false /\ memZ (snd a) mv = false).
  { intros x Hx. assert (Hin : In (snd (fst x)) (map (fun x => snd (fst x)) K)) by (apply in_map_iff; eauto). rewrite PK in Hin.
    apply in_map_iff in Hin as (a & Ea & Ha). apply filter_In in Ha as (Ha & Hm). apply (t_sarcs_in r p es ws g a TE R Hh) in Ha as (Ha & Eo).
    exists a. apply negb_true_iff, orb_false_iff in Hm as (M1 & M2). repeat split; auto. }
  split; [|split].
  - apply Forall_forall. intros m Hm. apply in_map_iff in Hm as (x & <- & Hx). split; [apply Mk_wf|]. rewrite Forall_forall in WK. split; [|cbn; auto].
    destruct (KA x Hx) as (a & _ & _ & E & _). cbn [Mk me_pins]. now rewrite E.
  - rewrite map_map. cbn [Mk me_pins]. etransitivity; [apply Permutation_refl'; exact PK|]. apply Permutation_map.
    etransitivity; [apply perm_filter, (t_sarcs r p es ws g TE R Hh)|]. rewrite filter_filter'. apply Permutation_refl'. apply filter_ext_in.
    intros a Ha. unfold kept_arc. destruct (th_A a Ha) as (H1 & H2 & _). rewrite !(moved_mem r p mv _ Hp MV) by auto.
    destruct (Nat.eqb_spec (own (fst a)) r); cbn [andb]; auto. destruct (Nat.eqb (own' (fst a)) r); cbn; auto.
  - intros SY. assert (EF : map (Mk (own_now (pd_verts p) ow r)) K = map (Mk F) K).
    { apply map_ext_in. intros x Hx. apply Mk_ext. intros v Hv. destruct (KA x Hx) as (a & Ha & Eo & E & M1 & M2). assert (Hv2 : In v (pin2 a)) by (rewrite <- E; exact Hv). clear Hv. rename Hv2 into Hv.
      rewrite <- (town1_now r p ow mv v a Hp MV Hg SY Ha Eo Hv). unfold newown. replace (memZ v mv) with false; auto. destruct Hv as [<-|[<-|[]]]; auto. }
    rewrite EF, Hs. destruct (note_all F (Z.of_nat r) K []) as (A1 & _ & C1); [intros v o; discriminate|]. split; [exact A1|].
    apply Forall_forall. intros m Hm. apply in_map_iff in Hm as (x & <- & Hx). now apply C1.
Qed.

Lemma ts_vert_send r p w PA : nth_error ps r = Some p -> TW (tkeptV r p) PA r p w ->
  exists ms, vert_send w = Some ms /\ NoDup (map snd ms) /\
    forall d x, In (d, x) ms <-> In x V /\ own (fst x) = r /\ own' (fst x) <> r /\ d = Z.of_nat (own' (fst x)).
Proof.
  intros Hp (vm & w1 & -> & (g & plan & mv & ow & Ew & R & RO & Hh & Hs & PV & MV & Hg) & _). pose proof (th_part r p Hp) as (HV & Lo & _). rewrite vm_vsend.
  pose proof (vert_send_ok g _ _ _ _ r (pd_oo p) R Lo plan mv own' PV MV w1 Ew) as E. eexists. split; [exact E|].
  assert (VR : forall v, In v (pd_verts p) -> In (vrec (pd_verts p) (vweights p) (pd_oo p) v) (vrecs p)).
  { intros v Hv. unfold vrecs. rewrite (recs_eq g _ _ _ _ r (pd_oo p) R Lo). now apply in_map. }
  split.
  - rewrite map_map. cbn [snd]. apply (NoDup_map_inv fst). rewrite map_map. cbn [vrec fst]. rewrite map_id. apply PV.
  - intros d x. rewrite in_map_iff. split.
    + intros (v & Ex & Hv). inversion Ex; subst. apply MV in Hv as (Hv & Hd). pose proof (VR v Hv) as Hx. apply (tin_vrecs r p _ Hp) in Hx as (Hx & Eo). cbn [vrec fst] in *. auto.
    + intros (Hx & Eo & Hd & ->). assert (Hin : In x (vrecs p)) by (apply (tin_vrecs r p x Hp); auto).
      assert (Hv : In (fst x) (pd_verts p)) by (rewrite <- (tvr_fst r p Hp); now apply in_map).
      exists (fst x). split; [|apply MV; auto]. f_equal. apply (NoDup_map_key _ _ fst V); [apply th_nodup|now apply (tin_vrecs r p _ Hp), VR|exact Hx|reflexivity].
Qed.
Lemma ts_vert_recv r p w arr PA : nth_error ps r = Some p -> TW (tkeptV r p) PA r p w -> NoDup (map snd arr) ->
  (forall q x, In (q, x) arr -> In x V /\ own (fst x) <> own' (fst x) /\ own' (fst x) = r) ->
  (forall x, In x V -> own (fst x) <> own' (fst x) -> own' (fst x) = r -> exists q, In (q, x) arr) ->
  exists w', vert_recv w arr = Some w' /\ TW (tallV r) PA r p w'.
Proof.
  intros Hp (vm & w1 & -> & HPS & KV & WR) ND A1 A2. eexists. split; [reflexivity|].
  exists vm, (mkMW (w_part w1) (w_verts w1 ++ map snd arr) (w_edges w1) (w_gown w1)). split; [reflexivity|]. split; [exact HPS|]. split; [|exact WR]. cbn [w_verts].
  pose proof th_nodup as NV. unfold tkeptV in KV. rewrite KV. pose proof (th_part r p Hp) as ((NDp & _) & _).
  assert (NDr : NoDup (vrecs p)) by (apply (NoDup_map_inv fst); rewrite (tvr_fst r p Hp); exact NDp).
  apply perm_by_mem.
  - apply NoDup_app_iff. split; [now apply NoDup_filter|]. split; [exact ND|]. intros x Hx Hy. apply filter_In in Hx as (Hx & _). apply (tin_vrecs r p x Hp) in Hx as (_ & Er).
    apply in_map_iff in Hy as ((q, y) & <- & Hy). cbn [snd] in *. apply A1 in Hy as (_ & Hne & E'). congruence.
  - apply NoDup_filter. now apply (NoDup_map_inv fst).
  - intros x. rewrite in_app_iff, !filter_In, Nat.eqb_eq, (tin_vrecs r p x Hp). split.
    + intros [((Hx & _) & E)|Hin]; [auto|]. apply in_map_iff in Hin as ((q, y) & <- & Hy). apply A1 in Hy as (Hy & _ & E). auto.
    + intros (Hx & E). destruct (Nat.eq_dec (own (fst x)) r) as [Er|Ne]; [left; auto|right]. destruct (A2 x Hx ltac:(congruence) E) as (q & Hq). apply in_map_iff. exists (q, x). auto.
Qed.

(* ------- edges ------- *)
Definition arcp (l : list Z) : arc := match l with u :: w :: _ => (u, w) | _ => (0, 0)%Z end.
Lemma filter_map' X Y (f : X -> Y) (P : Y -> bool) l : map f (filter (fun x => P (f x)) l) = filter P (map f l).
Proof. symmetry. apply filter_map. Qed.
Lemma ts_edge_send r p w (P : list (Z * (Z * Z)) -> Prop) PA : nth_error ps r = Some p -> TW P PA r p w ->
  exists ms, edge_send fuel w = Some ms /\
    (forall q, Permutation (map (fun m => me_pins (snd m)) (filter (fun m => Z.eqb (fst m) (Z.of_nat q)) ms)) (map pin2 (filter (sent_arc r q) A))) /\
    forall d m, In (d, m) ms -> good_rec m /\ (exists u, In u (map fst V) /\ d = F u) /\ (SYM -> exists x, m = Mk F x).
Proof.
  intros Hp (vm & w1 & -> & (g & plan & mv & ow & Ew & R & RO & Hh & Hs & PV & MV & Hg) & _). pose proof (th_part r p Hp) as (HV & Lo & _). rewrite vm_esend.
  destruct (ttype0 r p Hp) as (es & ws & TE).
  destruct (t_edge_send g _ _ _ _ ow r (pd_oo p) R RO Hh Hs Lo es ws w0 (te_t _ _ _ _ TE) (te_two _ _ _ _ TE) (te_src _ _ _ _ TE) (te_loop _ _ _ _ TE) (te_w _ _ _ _ TE) plan mv own' PV MV fuel w1 Ew (te_len _ _ _ _ TE))
    as (X & EX & WX & PX & IX).
  eexists. split; [exact EX|]. split.
  - intros q. rewrite filter_map, map_map. cbn [fst snd Mk me_pins].
    change (map (fun x : edge_input * Z => snd (fst x)) (filter (fun x => (fun l => Z.eqb (Z.of_nat (own' (fst (arcp l)))) (Z.of_nat q)) (snd (fst x))) X)) with
           (map (fun x : edge_input * Z => snd (fst x)) (filter (fun x => Z.eqb (Z.of_nat (own' (fst (arc_of (fst x))))) (Z.of_nat q)) X)).
    rewrite (filter_map' _ _ (fun x : edge_input * Z => snd (fst x)) (fun l => Z.eqb (Z.of_nat (own' (fst (arcp l)))) (Z.of_nat q))).
    etransitivity; [apply perm_filter; exact PX|]. rewrite filter_map. apply Permutation_map. cbn [pin2 arcp fst snd]. rewrite filter_filter'.
    etransitivity; [apply perm_filter, (t_sarcs r p es ws g TE R Hh)|]. rewrite filter_filter'. apply Permutation_refl', filter_ext_in. intros a Ha. unfold sent_arc.
    destruct (th_A a Ha) as (H1 & _). rewrite (moved_mem r p mv _ Hp MV H1). destruct (Nat.eqb_spec (own (fst a)) r) as [->|]; auto. cbn [andb]. f_equal.
    apply eq_true_iff_eq. rewrite Z.eqb_eq, Nat.eqb_eq. lia.
  - intros d m Hin. apply in_map_iff in Hin as (x & Ex & Hx). inversion Ex; subst d m. destruct (IX x Hx) as (a & Ha & Hm & Ea).
    apply (t_sarcs_in r p es ws g a TE R Hh) in Ha as (Ha & Eo). split; [|split].
    + split; [apply Mk_wf|]. rewrite Forall_forall in WX. split; [cbn [Mk me_pins]; now rewrite Ea|cbn; auto].
    + exists (fst a). split; [apply (th_A a Ha)|]. unfold arc_of. rewrite Ea. reflexivity.
    + intros SY. exists x. apply Mk_ext. intros v Hv0. assert (Hv : In v (pin2 a)) by (rewrite <- Ea; exact Hv0). apply (town1_now r p ow mv v a Hp MV Hg SY Ha Eo Hv).
Qed.
Lemma ts_edge_recv r p w arr : nth_error ps r = Some p -> TW (tallV r) (kept_arc r) r p w ->
  Permutation (map (fun m => me_pins (snd m)) arr) (map pin2 (filter (came_arc r) A)) ->
  (forall q m, In (q, m) arr -> good_rec m /\ (SYM -> exists x, m = Mk F x)) ->
  exists w', edge_recv 0 w arr = Some w' /\ TW (tallV r) (final_arc r) r p w'.
Proof.
  intros Hp (vm & w1 & -> & HPS & KV & es & Ee & GR & PE & SY1) PArr HArr. unfold edge_recv. cbn [with_vmw w_edges w_part w_gown w_verts with_vm mp_g]. rewrite Ee. cbn [nth_error obind].
  assert (HH : hyper (mp_g (w_part w1)) = false /\ self (mp_g (w_part w1)) = Z.of_nat r).
  { destruct HPS as (g & plan & mv & ow & -> & _ & _ & Hh & Hs & _). auto. }
  destruct HH as (HH1 & HH2). cbn [with_owners hyper self]. rewrite HH1, HH2, trecv_fold. eexists. split; [reflexivity|]. cbn [upd].
  exists vm, (mkMW (w_part w1) (w_verts w1) [es ++ map snd arr] (fold_left (note_owners (Z.of_nat r)) (map snd arr) (w_gown w1))). split; [reflexivity|]. split; [exact HPS|].
  cbn [w_verts w_edges w_gown]. split; [exact KV|]. exists (es ++ map snd arr). split; [reflexivity|]. split; [|split].
  - apply Forall_app. split; auto. apply Forall_forall. intros m Hm. apply in_map_iff in Hm as ((q, m') & <- & Hm). now apply HArr in Hm.
  - rewrite map_app, map_map. etransitivity; [apply Permutation_app; [exact PE|exact PArr]|]. rewrite <- map_app. apply Permutation_map. apply filter_union.
    intros a Ha. unfold final_arc, kept_arc, came_arc, survives.
    destruct (Nat.eqb_spec (own' (fst a)) r) as [E1|N1]; [|rewrite !andb_false_r; cbn; split; auto; now rewrite !andb_false_r].
    rewrite !andb_true_r, E1. destruct (Nat.eqb_spec (own (fst a)) r) as [E2|N2].
    + rewrite E2, Nat.eqb_refl. cbn [negb andb orb]. rewrite orb_false_r, andb_false_r. split; auto. rewrite andb_true_r. destruct (Nat.eqb_spec r (own (snd a))) as [<-|]; [now rewrite Nat.eqb_refl|].
      destruct (Nat.eqb_spec (own (snd a)) r); [congruence|reflexivity].
    + cbn [andb orb]. destruct (Nat.eqb_spec r (own (fst a))); [congruence|]. now rewrite andb_false_r.
  - intros SY. destruct (SY1 SY) as (A1 & C1).
    assert (XS : exists xs, map snd arr = map (Mk F) xs).
    { assert (G : forall q m, In (q, m) arr -> exists x, m = Mk F x) by (intros q m Hm; now apply (HArr q m Hm)). clear - G. induction arr as [|(q, m) arr IH]; [exists []; auto|].
      destruct IH as (xs & E); [intros; eapply G; right; eauto|]. destruct (G q m (or_introl eq_refl)) as (x & ->). exists (x :: xs). cbn [map snd]. now rewrite E. }
    destruct XS as (xs & EX). rewrite EX. destruct (note_all F (Z.of_nat r) xs (w_gown w1) A1) as (A2 & K2 & C2). split; [exact A2|].
    apply Forall_app. split; apply Forall_forall; intros m Hm.
    + rewrite Forall_forall in C1. now apply K2, C1.
    + apply in_map_iff in Hm as (x & <- & Hx). now apply C2.
Qed.
(** what part r holds at the end *)
Definition tmigrated (r : nat) (p' : pdesc) (s' : graph * arr Z) : Prop :=
  built_from false r p' s' /\ tholds own' V (surviving own own' A) w0 r p' /\ (SYM -> tghosts own' p').
Lemma ts_build r p w : nth_error ps r = Some p -> TW (tallV r) (final_arc r) r p w -> exists s' p', mig_build w = Some s' /\ tmigrated r p' s'.
Proof.
  intros Hp (vm & w1 & -> & HPS & KV & es & Ee & GR & PE & SY1). rewrite vm_build.
  destruct HPS as (g & plan & mv & ow & Ew & _ & _ & Hh & Hs & _).
  assert (NDw : NoDup (map fst (w_verts w1))).
  { eapply Permutation_NoDup; [apply Permutation_map; symmetry; exact KV|]. apply NoDup_filter_map, th_nodup. }
  assert (L7 : length (w_edges w1) <= 7) by (rewrite Ee; cbn; lia).
  assert (W1 : Forall (Forall wfme) (w_edges w1)) by (rewrite Ee; constructor; [eapply Forall_impl; [|exact GR]; intros m H; apply H|constructor]).
  assert (W2 : Forall (Forall (fun m => length (me_pins m) = 2)) (w_edges w1)) by (rewrite Ee; constructor; [eapply Forall_impl; [|exact GR]; intros m H; apply H|constructor]).
  destruct (tmig_build w1 r) as (s' & E & B); auto; try (rewrite Ew; auto).
  pose proof (tpd_valid w1 NDw L7 W2) as HV'.
  exists s', (pd_of w1). split; [exact E|]. split; [exact B|].
  assert (Ty : pd_tys (pd_of w1) = [ty_of es]) by (cbn [pd_of pd_tys]; now rewrite Ee).
  assert (PEs : Permutation (map snd (fst (ty_of es))) (map pin2 (filter (final_arc r) A))) by (cbn [ty_of fst]; rewrite map_map; exact PE).
  split.
  - split; [exact HV'|]. split; [cbn; now rewrite !map_length|]. split; [rewrite pd_of_vrecs; exact KV|].
    exists (fst (ty_of es)), (snd (ty_of es)). split; [now rewrite Ty|]. split.
    + etransitivity; [exact PEs|]. unfold surviving. rewrite filter_filter'. apply Permutation_refl. 
    + unfold eweights. cbn [ty_of fst snd]. rewrite Forall_forall in GR. destruct es as [|m es]; [constructor|]. cbn [map]. apply Forall_forall. intros y Hy.
      destruct Hy as [<-|Hy]; [symmetry; apply (GR m); cbn; auto|]. apply in_map_iff in Hy as (m' & <- & Hm'). symmetry. apply (GR m'). cbn; auto.
  - intros SY v Hv. destruct (SY1 SY) as (AG & C).
    destruct B as (B & _). pose proof (p_constructed _ _ _ _ _ _ _ HV' B) as HC. pose proof (c_ghost_not_local _ _ _ _ _ _ HC v Hv) as Hnl.
    assert (Ha : In v (pd_verts (pd_of w1) ++ gh (pd_of w1))) by (apply in_app_iff; auto).
    apply (c_gids_iff _ _ _ _ _ _ HC) in Ha as [Hl|(ty & e & Hty & He & Hve)]; [contradiction|]. rewrite Ty in Hty. destruct Hty as [<-|[]].
    assert (HvV : In v (map fst V)).
    { assert (Hin : In (snd e) (map snd (fst (ty_of es)))) by (now apply in_map). apply (Permutation_in _ PEs), in_map_iff in Hin as (a & Ea & Hin). apply filter_In in Hin as (Hin & _).
      rewrite <- Ea in Hve. destruct (th_A a Hin) as (H1 & H2 & _). destruct Hve as [<-|[<-|[]]]; auto. }
    cbn [ty_of fst] in He. apply in_map_iff in He as (m & <- & Hm). cbn [snd] in Hve.
    assert (Hne : F v <> Z.of_nat r).
    { intros Eq. apply Hnl. cbn [pd_of pd_verts]. assert (Er : own' v = r) by lia. apply in_map_iff in HvV as (y & <- & Hy). apply in_map.
      apply (Permutation_in _ (Permutation_sym KV)). apply filter_In. split; auto. now apply Nat.eqb_eq. }
    rewrite Forall_forall in C. specialize (C m Hm v Hve Hne). destruct (zfind (w_gown w1) v) as [o|] eqn:Ez; [|congruence]. cbn [pd_of pd_owns]. rewrite Ez. f_equal. now apply AG.
Qed.

Theorem trad_migrate_ok : migrate fuel sts (fun sts' => length sts' = n /\ exists ps', length ps' = n /\
  forall r p' s', nth_error ps' r = Some p' -> nth_error sts' r = Some s' -> tmigrated r p' s').
Proof.
  assert (Lsts : length sts = n) by (apply HRdy).
  assert (PPg : forall A (l : list A) i w, length l = n -> nth_error l i = Some w -> exists p, nth_error ps i = Some p).
  { intros A' l i w L Hi. destruct (nth_error ps i) eqn:E; eauto. apply nth_error_None in E. assert (i < length l) by (apply nth_error_Some; congruence). lia. }
  assert (Ent : 0 < n -> max_types sts = 1).
  { intros Hn. unfold max_types. destruct HRdy as (_ & Lc & HRr).
    assert (AA : forall x, In x (map (fun s => ntypes (mp_g s)) sts) -> x = 1).
    { intros x Hx. apply in_map_iff in Hx as (s & <- & Hs). apply In_nth_error in Hs as (i & Hi). destruct (PPg _ sts i s Lsts Hi) as (p & Hp).
      assert (L : i < n) by (apply nth_error_Some; congruence). destruct (nth_error calls i) as [cs|] eqn:Ec; [|apply nth_error_None in Ec; lia].
      destruct (HRr _ _ _ _ Hp Ec Hi) as ((HB & _) & _). pose proof (th_part i p Hp) as (HV & _ & _ & es & ws & Et & _).
      cbn [fst] in HB. rewrite (c_ntypes _ _ _ _ _ _ (p_constructed _ _ _ _ _ _ _ HV HB)), Et. reflexivity. }
    assert (Ne : map (fun s => ntypes (mp_g s)) sts <> []) by (destruct sts; cbn in *; [lia|discriminate]).
    clear - AA Ne. induction (map (fun s => ntypes (mp_g s)) sts) as [|x l IH]; [congruence|]. cbn [fold_right]. rewrite (AA x (or_introl eq_refl)).
    destruct l as [|y l]; [cbn; lia|]. rewrite IH; [lia|intros; apply AA; cbn; auto|discriminate]. }
  unfold migrate. destruct (Nat.eq_dec n 0) as [Z0|Nz].
  { assert (sts = []) by (apply length_zero_iff_nil; lia). rewrite H. cbn [max_types map fold_right seq edge_phases].
    assert (DZ : forall M (l : list (list (Z * M))), delivered [] l -> l = []) by (intros M l (_ & L & _); now apply length_zero_iff_nil).
    exists []. split; [reflexivity|]. exists []. split; [reflexivity|]. split; [intros ms m []|]. intros rcv D. apply DZ in D. subst rcv.
    exists []. split; [reflexivity|]. exists []. split; [reflexivity|]. exists []. split; [reflexivity|]. split; [intros ms m []|]. intros rcv D. apply DZ in D. subst rcv.
    exists []. split; [reflexivity|]. exists []. split; [reflexivity|]. rewrite Z0. split; [reflexivity|]. exists []. split; [reflexivity|].
    intros [|r] p' s' Hp'; discriminate. }
  rewrite (Ent ltac:(lia)).
  apply local_intro with (PB := fun i s => forall p, nth_error ps i = Some p -> TPS town0 i p s).
  { intros i s Hi. destruct (PPg _ sts i s Lsts Hi) as (p & Hp). destruct (t_cleanup i p s Hp Hi) as (s' & E & B). exists s'. split; auto. intros p' Hp'. assert (p' = p) by congruence. now subst. }
  intros s0 L0 H0. rewrite Lsts in L0.
  apply phase_intro with (PB := fun i s => forall p, nth_error ps i = Some p -> exists s1 vm, s = with_vm vm s1 /\ TPS town1 i p s1).
  { intros i s Hi. destruct (PPg _ s0 i s L0 Hi) as (p & Hp). destruct (ts_upd_send i p s Hp (H0 i s Hi p Hp)) as (ms & E & Hm). exists ms. split; [exact E|].
    intros (d, x) Hin. apply Hm in Hin as (v & o & Ha & _ & _ & _ & -> & _). cbn [fst]. rewrite L0. destruct (th_A _ Ha) as (_ & Ho & _). cbn [snd] in Ho. pose proof (th_own o Ho). lia. }
  { intros sent rcv Es Dl i s arr Hi Ha. destruct (PPg _ s0 i s L0 Hi) as (p & Hp).
    destruct (ts_upd_recv i p s arr Hp (H0 i s Hi p Hp)) as (s' & vm & E & B).
    - intros q x. rewrite (arrived_in _ _ _ _ _ _ _ _ _ _ Es Dl Ha). split.
      + intros (j & a & ms & Hj & Em & -> & Hin). destruct (PPg _ s0 j a L0 Hj) as (pj & Hpj). destruct (ts_upd_send j pj a Hpj (H0 j a Hj pj Hpj)) as (ms' & E' & Hm).
        assert (ms' = ms) by congruence. subst ms'. apply Hm in Hin as (v & o & HvA & Eo & Hd & Hne & Ed & ->).
        exists v, o. subst j. repeat split; auto. lia.
      + intros (v & o & HvA & -> & Hd & Hne & Eo & ->). destruct (th_A _ HvA) as (HvV & _). cbn [fst] in HvV. pose proof (th_own v HvV) as Lv.
        destruct (nth_error ps (own v)) as [pj|] eqn:Hpj; [|apply nth_error_None in Hpj; lia]. destruct (nth_error s0 (own v)) as [a|] eqn:Hj; [|apply nth_error_None in Hj; lia].
        destruct (ts_upd_send (own v) pj a Hpj (H0 _ a Hj pj Hpj)) as (ms & E' & Hm). exists (own v), a, ms. split; auto. split; auto. split; auto. apply Hm.
        exists v, o. repeat split; auto; now rewrite Eo.
    - eexists. split; [exact E|]. intros p' Hp'. assert (p' = p) by congruence. subst. eauto. }
  intros s1 L1 H1. rewrite L0 in L1.
  apply local_intro with (PB := fun i w => forall p, nth_error ps i = Some p -> TW (tkeptV i p) (kept_arc i) i p w).
  { intros i s Hi. destruct (PPg _ s1 i s L1 Hi) as (p & Hp). destruct (H1 i s Hi p Hp) as (s2 & vm & -> & HP2). destruct (ts_setup i p s2 vm Hp HP2) as (w & E & B). exists w. split; auto. intros p' Hp'. assert (p' = p) by congruence. now subst. }
  intros ws Lw HW. rewrite L1 in Lw.
  apply phase_intro with (PB := fun i w => forall p, nth_error ps i = Some p -> TW (tallV i) (kept_arc i) i p w).
  { intros i w Hi. destruct (PPg _ ws i w Lw Hi) as (p & Hp). destruct (ts_vert_send i p w _ Hp (HW i w Hi p Hp)) as (ms & E & _ & Hm). exists ms. split; [exact E|].
    intros (d, x) Hin. apply Hm in Hin as (Hx & _ & _ & ->). cbn [fst]. rewrite Lw. pose proof (th_range (fst x) (in_map fst _ _ Hx)). lia. }
  { intros sent rcv Es Dl i w arr Hi Ha. destruct (PPg _ ws i w Lw Hi) as (p & Hp).
    destruct (ts_vert_recv i p w arr _ Hp (HW i w Hi p Hp)) as (w' & E & B).
    - apply (arrived_nodup _ _ _ _ _ _ _ _ Es Dl Ha).
      + intros j a ms Hj Em. destruct (PPg _ ws j a Lw Hj) as (pj & Hpj). destruct (ts_vert_send j pj a _ Hpj (HW j a Hj pj Hpj)) as (ms' & E' & Nd & _).
        assert (ms' = ms) by congruence. subst ms'. now apply NoDup_filter_map.
      + intros j k a b ms ms' m Hj Hk Ea Eb Hin Hin'. destruct (PPg _ ws j a Lw Hj) as (pj & Hpj). destruct (PPg _ ws k b Lw Hk) as (pk & Hpk).
        destruct (ts_vert_send j pj a _ Hpj (HW j a Hj pj Hpj)) as (m1 & E1 & _ & Q1). destruct (ts_vert_send k pk b _ Hpk (HW k b Hk pk Hpk)) as (m2 & E2 & _ & Q2).
        assert (m1 = ms) by congruence. assert (m2 = ms') by congruence. subst m1 m2. apply Q1 in Hin as (_ & E3 & _). apply Q2 in Hin' as (_ & E4 & _). congruence.
    - intros q x Hin. apply (arrived_in _ _ _ _ _ _ _ _ _ _ Es Dl Ha) in Hin as (j & a & ms & Hj & Em & -> & Hin). destruct (PPg _ ws j a Lw Hj) as (pj & Hpj).
      destruct (ts_vert_send j pj a _ Hpj (HW j a Hj pj Hpj)) as (m1 & E1 & _ & Q1). assert (m1 = ms) by congruence. subst m1. apply Q1 in Hin as (Hx & Eo & Hd & Ed). split; auto. split; [congruence|lia].
    - intros x Hx Hne Er. assert (HV : In (fst x) (map fst V)) by (now apply in_map). pose proof (th_own _ HV) as Lv.
      destruct (nth_error ps (own (fst x))) as [pj|] eqn:Hpj; [|apply nth_error_None in Hpj; lia]. destruct (nth_error ws (own (fst x))) as [a|] eqn:Hj; [|apply nth_error_None in Hj; lia].
      destruct (ts_vert_send _ pj a _ Hpj (HW _ a Hj pj Hpj)) as (ms & E1 & _ & Q1). exists (Z.of_nat (own (fst x))). apply (arrived_in _ _ _ _ _ _ _ _ _ _ Es Dl Ha).
      exists (own (fst x)), a, ms. split; auto. split; auto. split; auto. apply Q1. repeat split; auto; now rewrite Er.
    - exists w'. split; auto. intros p' Hp'. assert (p' = p) by congruence. now subst. }
  intros ws1 Lw1 HW1. rewrite Lw in Lw1. cbn [seq edge_phases].
  apply phase_intro with (PB := fun i w => forall p, nth_error ps i = Some p -> TW (tallV i) (final_arc i) i p w).
  { intros i w Hi. destruct (PPg _ ws1 i w Lw1 Hi) as (p & Hp). destruct (ts_edge_send i p w _ _ Hp (HW1 i w Hi p Hp)) as (ms & E & _ & Hm). exists ms. split; [exact E|].
    intros (d, m) Hin. apply Hm in Hin as (_ & (u & Hu & ->) & _). cbn [fst]. rewrite Lw1. pose proof (th_range u Hu). lia. }
  { intros sent rcv Es Dl i w arr Hi Ha. destruct (PPg _ ws1 i w Lw1 Hi) as (p & Hp). pose proof (mapM_length _ _ _ _ _ Es) as LS.
    destruct (ts_edge_recv i p w arr Hp (HW1 i w Hi p Hp)) as (w' & E & B).
    - destruct Dl as (_ & _ & Dl). specialize (Dl i arr Ha). etransitivity; [apply Permutation_map; exact Dl|].
      etransitivity; [apply (addressed_group _ _ i sent me_pins (fun j => map pin2 (filter (sent_arc j i) A)))|].
      + intros j ms Hj. assert (Lj : j < length ws1) by (rewrite <- LS; apply nth_error_Some; congruence).
        destruct (nth_error ws1 j) as [a|] eqn:Hja; [|apply nth_error_None in Hja; lia]. destruct (mapM_nth _ _ _ _ _ _ _ Es Hja) as (y & Hy & Ey). assert (y = ms) by congruence. subst y.
        destruct (PPg _ ws1 j a Lw1 Hja) as (pj & Hpj). destruct (ts_edge_send j pj a _ _ Hpj (HW1 j a Hja pj Hpj)) as (ms' & E' & Pq & _). assert (ms' = ms) by congruence. subst ms'. apply Pq.
      + rewrite LS, Lw1. transitivity (map pin2 (flat_map (fun j => filter (sent_arc j i) A) (seq 0 n))).
        * apply Permutation_refl'. clear. induction (seq 0 n) as [|j l IH]; auto. cbn [flat_map]. rewrite IH. symmetry. apply map_app.
        * apply Permutation_map. apply (filter_group _ (fun a => own (fst a)) (came_arc i) A n). intros a HaA _. apply th_own, (th_A a HaA).
    - intros q m Hin. apply (arrived_in _ _ _ _ _ _ _ _ _ _ Es Dl Ha) in Hin as (j & a & ms & Hj & Em & -> & Hin). destruct (PPg _ ws1 j a Lw1 Hj) as (pj & Hpj).
      destruct (ts_edge_send j pj a _ _ Hpj (HW1 j a Hj pj Hpj)) as (ms' & E' & _ & Hm). assert (ms' = ms) by congruence. subst ms'. apply Hm in Hin as (G & _ & S). auto.
    - exists w'. split; auto. intros p' Hp'. assert (p' = p) by congruence. now subst. }
  intros ws3 Lw3 HW3. rewrite Lw1 in Lw3.
  apply local_intro with (PB := fun i s' => exists p', tmigrated i p' s').
  { intros i w Hi. destruct (PPg _ ws3 i w Lw3 Hi) as (p & Hp). destruct (ts_build i p w Hp (HW3 i w Hi p Hp)) as (s' & p' & E & B). exists s'. split; eauto. }
  intros st' Ls' HS'. rewrite Lw3 in Ls'. split; [exact Ls'|].
  destruct (list_choice _ _ (fun i s' p' => tmigrated i p' s') st' HS') as (ps' & Lp & HPp).
  exists ps'. split; [congruence|]. intros r p' s' Hp' Hs'. eapply HPp; eauto.
Qed.
End TG.
