(** A part of a hypergraph as the two passes of EnGPar_ParMETIS see it. *)
From Verif Require Import Base GraphModel CsrProofs ConstructProofs GraphSpec AccessProofs AccessProofs2 CountProofs GraphTop GraphTop2 Comm TagModel MigrateModel MigrateProofs2 ValidModel ValidProps ParmetisModel ParmetisSpec ParmetisProofs.

(** the neighbour iterator returns these vertices, on these edges *)
Fixpoint ytrace (g : graph) (it : giter) (l : list (nat * nat)) : Prop :=
  match l with
  | [] => exists it', adj_step g it = Some (0, it')
  | xe :: r => fst xe <> 0 /\ exists it', adj_step g it = Some (fst xe, it') /\ gi_edge it' = snd xe /\ ytrace g it' r
  end.
Lemma weigh_trace g h (w : nat -> Z) l : forall it fuel m, ytrace g it l -> (forall x e, In (x, e) l -> eweight g e = Some (w e)) -> length l < fuel ->
  weigh g h fuel it m = Some (add_all (map (fun p => (fst p, w (snd p))) (filter (fun p => negb (fst p =? h)) l)) m).
Proof.
  induction l as [|[x e] l IH]; intros it fuel m HY Hw Hf; cbn [ytrace fst snd length] in *.
  - destruct fuel; [lia|]. destruct HY as (it' & E). cbn [weigh]. rewrite E. reflexivity.
  - destruct fuel as [|f]; [lia|]. destruct HY as (N & it' & E & Ee & HY). cbn [weigh]. rewrite E. cbn [obind]. destruct (Nat.eqb_spec x 0); [congruence|].
    cbn [filter fst]. destruct (x =? h) eqn:Ex; cbn [negb].
    + apply (IH it' f m HY (fun a b Hab => Hw a b (or_intror Hab)) ltac:(lia)).
    + rewrite Ee, (Hw x e (or_introl eq_refl)). cbn [obind]. rewrite (IH it' f (add_weight m x (w e)) HY (fun a b Hab => Hw a b (or_intror Hab)) ltac:(lia)). reflexivity.
Qed.

Section AdjP.
Variables (g : graph) (verts wts ghosts : list Z) (tys : list (list (Z * list Z) * list Z)).
Hypothesis HR : Rep g verts wts ghosts tys.
Variables (t : nat) (es : list (Z * list Z)) (ws : list Z).
Hypothesis Ht : nth_error tys t = Some (es, ws).
Let all := verts ++ ghosts.
Let n := length verts.
Let h (v : Z) : nat := S (idx all v).
Let poff (i : nat) := nsum (firstn i (map (@length Z) (epins_of es))).
Let pa (i : nat) : list Z := match nth_error es i with Some e => snd e | None => [] end.
Let eh (i : nat) := getEdge (ntypes g) i t.

Lemma adj_p_outer : hyper g = true -> forall r eit count pit edge d,
  yields (eit_step g) eit (map eh r) ->
  (forall i, In i r -> exists gid ps, nth_error es i = Some (gid, ps) /\ ps <> []) ->
  edegree g edge = Some d -> d <= count ->
  ytrace g (mkGiter count eit pit edge) (flat_map (fun i => map (fun w => (h w, eh i)) (pa i)) r).
Proof.
  intros Hh. induction r as [|i r IH]; intros eit count pit edge d Hy Hr Hd Hc.
  - cbn in Hy. destruct Hy as [eit' Hy]. cbn. exists (mkGiter count eit' None edge).
    unfold adj_step. rewrite Hh. cbn [gi_edge gi_count gi_eit]. rewrite Hd. cbn [obind].
    destruct (Nat.leb_spec d count); [|lia]. rewrite Hy. reflexivity.
  - cbn [map yields] in Hy. destruct Hy as (Hne & eit' & Hy & Hy').
    destruct (Hr i (or_introl eq_refl)) as (gid & ps & Hi & Hps).
    cbn [flat_map]. assert (Hpa : pa i = ps) by (unfold pa; now rewrite Hi).
    rewrite Hpa.
    assert (Hin : forall k m, m + k = length ps -> 1 <= m ->
      ytrace g (mkGiter m eit' (Some (PHyper t (poff i + m) (poff i + length ps))) (eh i))
        (map (fun w => (h w, eh i)) (skipn m ps) ++ flat_map (fun i => map (fun w => (h w, eh i)) (pa i)) r)).
    { induction k as [|k IHk]; intros m Hm H1.
      - rewrite skipn_all2 by lia. cbn [map app]. eapply IH with (d := length ps); eauto; try lia.
        + intros j Hj. apply Hr. right; auto.
        + apply (edegree_hyper _ _ _ _ _ HR t es ws i gid ps Hh Ht Hi).
      - destruct (nth_error ps m) as [v|] eqn:Ev; [|apply nth_error_None in Ev; lia].
        assert (Es : skipn m ps = v :: skipn (S m) ps).
        { clear - Ev. revert ps Ev; induction m as [|m IHm]; intros [|a ps] Ev; simpl in *; try discriminate.
          - inversion Ev; auto. - now apply IHm. }
        rewrite Es. cbn [map app ytrace fst snd]. split; [unfold h; discriminate|].
        eexists; split; [|split].
        + unfold adj_step. rewrite Hh. cbn [gi_edge gi_count gi_eit gi_pit].
          unfold eh. rewrite (edegree_hyper _ _ _ _ _ HR t es ws i gid ps Hh Ht Hi). cbn [obind].
          destruct (Nat.leb_spec (length ps) m); [lia|].
          cbn [obind]. pose proof (pit_step_hyper _ _ _ _ _ HR t es ws i gid ps m v Ht Hi Ev) as Hp.
          cbv zeta in Hp. fold (poff i) in Hp. rewrite Hp. cbn [obind]. unfold h, all. reflexivity.
        + reflexivity.
        + cbn [gi_count]. rewrite Nat.add_1_r. replace (poff i + m + 1) with (poff i + S m) by lia. apply IHk; lia. }
    destruct ps as [|v ps']; [congruence|]. cbn [map app ytrace fst snd]. split; [unfold h; discriminate|].
    eexists; split; [|split].
    + unfold adj_step. rewrite Hh. cbn [gi_edge gi_count gi_eit gi_pit]. rewrite Hd. cbn [obind].
      destruct (Nat.leb_spec d count); [|lia]. rewrite Hy. cbn [obind].
      destruct (Nat.eqb_spec (eh i) 0); [congruence|].
      unfold eh. rewrite (pins_begin_hyper _ _ _ _ _ HR t es ws i gid (v :: ps') Hh Ht Hi). cbn [obind].
      pose proof (pit_step_hyper _ _ _ _ _ HR t es ws i gid (v :: ps') 0 v Ht Hi eq_refl) as Hp.
      cbv zeta in Hp. rewrite Nat.add_0_r in Hp. rewrite Hp. cbn [obind]. reflexivity.
    + reflexivity.
    + change (map (fun w => (h w, eh i)) ps') with (map (fun w => (h w, eh i)) (skipn 1 (v :: ps'))). apply Hin with (k := length ps'); simpl; lia.
Qed.

Lemma adj_p_trace l v : hyper g = true -> nth_error verts l = Some v ->
  exists it, adj_begin g (S l) t = Some it /\ ytrace g it (flat_map (fun i => map (fun w => (h w, eh i)) (pa i)) (incident v es)).
Proof.
  intros Hh Hv. assert (Hl : l < n) by (apply nth_error_Some; unfold n in *; congruence).
  assert (Ev : vals_of l (occ_of g verts ghosts es) = incident v es).
  { unfold occ_of, epins_of, incident. rewrite Hh. apply vals_of_occs_hyper; auto; [apply HR|now rewrite nth_error_app1|].
    destruct (gtype_ok _ _ _ _ _ HR _ _ _ Ht) as (ed & _ & HE & _). apply (er_incl _ _ _ _ _ _ HE). }
  unfold adj_begin.
  assert (Hy : exists it, eit_vertex g (S l) t = Some it /\ yields (eit_step g) it (map eh (incident v es))).
  { pose proof (vertex_edges_hyper _ _ _ _ _ HR t es ws l (S (cnt_of l (occ_of g verts ghosts es))) Hh Ht Hl ltac:(lia)) as VE. rewrite Ev in VE.
    unfold vertex_edges in VE. destruct (eit_vertex g (S l) t) as [it|] eqn:Eit; [|discriminate]. cbn [obind] in VE.
    exists it; split; auto. clear - VE. revert VE. generalize (S (cnt_of l (occ_of g verts ghosts es))) as fuel. fold eh.
    generalize (map eh (incident v es)) as L.
    intros L fuel. revert it L. induction fuel as [|f IH]; intros it L H; simpl in H; [discriminate|].
    destruct (eit_step g it) as [[x it']|] eqn:Es; simpl in H; [|discriminate].
    destruct (Nat.eqb_spec x 0).
    - inversion H; subst. simpl. eauto.
    - destruct (drain (eit_step g) f it') as [r|] eqn:Ed; simpl in H; [|discriminate]. inversion H; subst.
      cbn [yields]. split; auto. exists it'. split; auto. }
  destruct Hy as (it & Eit & Hy). rewrite Eit. cbn [obind]. eexists. split; [reflexivity|].
  eapply adj_p_outer; eauto.
  - intros i Hi. rewrite <- Ev in Hi. eapply vals_in_pins; eauto.
  - unfold edegree. rewrite Hh. reflexivity.
Qed.
End AdjP.

(** ** the view *)
Lemma full_nth es ws i : (ws = [] \/ length ws = length es) -> i < length es -> match ws with [] => Some 1%Z | _ => nth_error ws i end = Some (nth i (full_ews es ws) 0%Z).
Proof.
  intros Hw L. unfold full_ews. destruct ws as [|w0 ws0].
  - f_equal. symmetry. apply nth_error_nth. now apply nth_error_repeat_lt.
  - destruct Hw as [X|X]; [discriminate|]. destruct (nth_error (w0 :: ws0) i) eqn:En; [|apply nth_error_None in En; unfold edge_input in *; lia]. f_equal. symmetry. now apply nth_error_nth.
Qed.
Definition pins_at (es : list edge_input) (i : nat) : list Z := match nth_error es i with Some e => snd e | None => [] end.
(** the pins around v on the edges of this part, with the weight of the edge *)
Definition around (es : list edge_input) (ws : list Z) (v : Z) : list (Z * Z) :=
  filter (fun p => negb (Z.eqb (fst p) v)) (flat_map (fun i => map (fun w => (w, nth i (full_ews es ws) 0%Z)) (pins_at es i)) (incident v es)).
Definition hnd (verts : list Z) (tys : list type_input) (w : Z) : nat := S (idx (verts ++ ghosts_of verts tys) w).

Section V.
Variables (me : Z) (verts vws : list Z) (tys : list type_input) (owns : zmap Z) (g : graph) (t fuel : nat) (es : list edge_input) (ws : list Z).
Hypothesis HV : valid_input true verts vws tys.
Hypothesis HB : build_part me true verts vws tys owns = Some g.
Hypothesis Ht : nth_error tys t = Some (es, ws).
Hypothesis Hf1 : length verts < fuel.
Hypothesis Hf2 : forall v, In v verts -> length (incident v es) < fuel /\ length (flat_map (pins_at es) (incident v es)) < fuel.
Hypothesis Hf3 : forall e, In e es -> length (snd e) < fuel.
Notation all := (verts ++ ghosts_of verts tys).
Notation HR := (proj1 (part_rep _ _ _ _ _ _ _ HV HB)).
Notation hd := (hnd verts tys).
Notation po := (part_of me verts owns).
Let HC := p_constructed _ _ _ _ _ _ _ HV HB.

Lemma pin_all e w : In e es -> In w (snd e) -> In w all.
Proof. intros He Hw. eapply (c_incl _ _ _ _ _ _ HC); eauto. apply in_concat. exists (snd e). split; auto. now apply in_map. Qed.
Lemma pins_at_in i w : In w (pins_at es i) -> exists e, nth_error es i = Some e /\ In w (snd e).
Proof. unfold pins_at. destruct (nth_error es i) as [e|]; [eauto|intros []]. Qed.
Lemma full_ews_nth i e : nth_error es i = Some e -> eweight g (getEdge (ntypes g) i t) = Some (nth i (full_ews es ws) 0%Z).
Proof.
  intros Hi. rewrite (w_edge _ _ _ _ _ _ HC t es ws i e Ht Hi). assert (L : i < length es) by (apply nth_error_Some; congruence).
  apply full_nth; auto. apply (proj1 (proj2 (proj2 (proj2 HV)) es ws (nth_error_In _ _ Ht))).
Qed.

Lemma in_around v w x : In (w, x) (around es ws v) <-> w <> v /\ exists i e, In i (incident v es) /\ nth_error es i = Some e /\ In w (snd e) /\ x = nth i (full_ews es ws) 0%Z.
Proof.
  unfold around. rewrite filter_In, in_flat_map. cbn [fst]. rewrite negb_true_iff, Z.eqb_neq. split.
  - intros ((i & Hi & Hp) & N). split; auto. apply in_map_iff in Hp as (w' & E & Hw). inversion E; subst. apply pins_at_in in Hw as (e & He & Hw). exists i, e. auto.
  - intros (N & i & e & Hi & He & Hw & ->). split; auto. exists i. split; auto. unfold pins_at. rewrite He. apply in_map_iff. exists w. auto.
Qed.

Lemma view_hyper : view t fuel g me verts (full_vws verts vws) (around es ws) hd po.
Proof.
  destruct (c_counts _ _ _ _ _ _ HC) as (Nv & _). constructor.
  - apply (p_self _ _ _ _ _ _ _ HV HB).
  - exact Nv.
  - apply HV.
  - apply (all_verts_ok _ _ _ _ _ HR); auto.
  - intros v i Hi. assert (Ha : nth_error all i = Some v) by (apply nth_verts; auto). split.
    + pose proof (c_vgid _ _ _ _ _ _ HC i v Ha) as X. unfold getVertex in X. now rewrite Nat.add_1_r in X.
    + unfold hnd. f_equal. apply nth_idx; auto. apply (rp_nd _ _ _ _ _ HR).
  - intros v i Hi. pose proof (w_vertex _ _ _ _ _ _ HC i v Hi) as X. unfold getVertex in X. rewrite Nat.add_1_r in X. eexists. split; [|exact X].
    unfold full_vws. assert (i < length verts) by (apply nth_error_Some; congruence). destruct (nth_error vws i) eqn:E.
    + rewrite nth_error_app1; auto. apply nth_error_Some. congruence.
    + apply nth_error_None in E. rewrite nth_error_app2 by auto. apply nth_error_repeat_lt. lia.
  - unfold full_vws. rewrite app_length, repeat_length. pose proof (proj1 (proj2 HV)). lia.
  - intros v w x Hv Hw. apply in_around in Hw as (N & i & e & Hi & He & Hw & ->). split; auto.
    assert (Hwa : In w all) by (eapply pin_all; eauto; eapply nth_error_In; eauto). split; [apply (vgid_idx _ _ _ _ _ HR); auto|]. split; [unfold hnd; discriminate|].
    pose proof (p_owner _ _ _ _ _ _ _ HV HB (idx all w) w (idx_nth _ _ Hwa)) as X. unfold getVertex in X. rewrite Nat.add_1_r in X. exact X.
  - intros v i Hi. exists (map hd (flat_map (pins_at es) (incident v es))). assert (HvV : In v verts) by (eapply nth_error_In; eauto). split.
    + unfold pins_around. destruct (c_incident _ _ _ _ _ _ HC t es ws i v fuel eq_refl Ht Hi (proj1 (Hf2 v HvV))) as (E & _). unfold getVertex in E. rewrite Nat.add_1_r in E. rewrite E. cbn [obind].
      rewrite mapM_map. rewrite mapM_some with (h := fun i => map hd (pins_at es i)).
      * cbn [obind]. f_equal. rewrite flat_map_concat_map, concat_map, map_map. reflexivity.
      * intros k Hk. apply ValidProps.in_incident in Hk as (e & He & _). unfold pins_at. rewrite He. destruct e as [gid ps].
        apply (edge_pins_hyper _ _ _ _ _ HR t es (eff_wgts ws (length es)) k gid ps fuel); [rewrite (p_hyper _ _ _ _ _ _ _ HV HB); auto|apply nth_eff, Ht|exact He|].
        apply (Hf3 (gid, ps)). eapply nth_error_In; eauto.
    + assert (HvA : In v all) by (apply in_or_app; auto).
      assert (Ehv : S i = hd v) by (unfold hnd; f_equal; symmetry; apply nth_idx; [apply (rp_nd _ _ _ _ _ HR)|apply nth_verts; auto]).
      intros h. rewrite in_map_iff. split.
      * intros ((w & <- & Hw) & N). apply in_flat_map in Hw as (k & Hk & Hw). apply pins_at_in in Hw as (e & He & Hw). exists w. split; auto. apply in_map_iff.
        exists (w, nth k (full_ews es ws) 0%Z). split; auto. apply in_around. split; [intros ->; congruence|]. exists k, e. auto.
      * intros (w & Hw & ->). apply in_map_iff in Hw as ((w' & x) & <- & Hw). cbn [fst]. apply in_around in Hw as (N & k & e & Hk & He & Hw & _). split.
        -- exists w'. split; auto. apply in_flat_map. exists k. split; auto. unfold pins_at. now rewrite He.
        -- rewrite Ehv. unfold hnd. intros X. apply N. injection X as X. eapply idx_inj; [| |exact X]; auto. eapply pin_all; eauto. eapply nth_error_In; eauto.
  - intros v i Hi. assert (HvV : In v verts) by (eapply nth_error_In; eauto). assert (HvA : In v all) by (apply in_or_app; auto).
    assert (Ehv : S i = hd v) by (unfold hnd; f_equal; symmetry; apply nth_idx; [apply (rp_nd _ _ _ _ _ HR)|apply nth_verts; auto]).
    destruct (adj_p_trace _ _ _ _ _ HR t es (eff_wgts ws (length es)) (nth_eff _ _ _ _ Ht) i v) as (it & E & Y); [rewrite (p_hyper _ _ _ _ _ _ _ HV HB); auto|exact Hi|].
    exists it. split; auto. intros m. rewrite (weigh_trace g (S i) (fun e => match eweight g e with Some x => x | None => 0%Z end) _ it fuel m Y).
    + f_equal. f_equal. unfold around. rewrite Ehv. clear Y.
      assert (G : forall r, (forall k, In k r -> In k (incident v es)) ->
        map (fun p => (fst p, match eweight g (snd p) with Some x => x | None => 0%Z end)) (filter (fun p => negb (fst p =? hd v)) (flat_map (fun i0 => map (fun w => (S (idx all w), getEdge (ntypes g) i0 t)) match nth_error es i0 with Some e => snd e | None => [] end) r))
        = map (fun p => (hd (fst p), snd p)) (filter (fun p => negb (fst p =? v)%Z) (flat_map (fun i0 => map (fun w => (w, nth i0 (full_ews es ws) 0%Z)) (pins_at es i0)) r))).
      { induction r as [|k r IH]; intros Hr; auto. cbn [flat_map]. rewrite !filter_app, !map_app. f_equal; [|apply IH; intros; apply Hr; right; auto].
        destruct (proj1 (ValidProps.in_incident v es k) (Hr k (or_introl eq_refl))) as (e & He & _). unfold pins_at. rewrite He.
        assert (PI : forall w, In w (snd e) -> In w all) by (intros; eapply pin_all; eauto; eapply nth_error_In; eauto). revert PI. generalize (snd e) as ps.
        induction ps as [|w ps IHp]; intros PI; auto. cbn [map filter fst]. change (S (idx all w)) with (hd w).
        assert (Eq : (hd w =? hd v) = (w =? v)%Z).
        { destruct (Z.eqb_spec w v) as [->|N]; [apply Nat.eqb_refl|]. apply Nat.eqb_neq. unfold hnd. intros X. apply N. injection X as X. eapply idx_inj; [| |exact X]; auto. apply PI. left; auto. }
        rewrite Eq. destruct (negb (w =? v)%Z); cbn [map fst snd]; [f_equal|]; [|apply IHp; intros; apply PI; right; auto|apply IHp; intros; apply PI; right; auto].
        rewrite (full_ews_nth k e He). reflexivity. }
      apply (G (incident v es)); auto.
    + intros x e He. apply in_flat_map in He as (k & Hk & He). apply in_map_iff in He as (w & Ew & Hw). inversion Ew; subst.
      change (In w (pins_at es k)) in Hw. apply pins_at_in in Hw as (e' & Ek & Hw). now rewrite (full_ews_nth k e' Ek).
    + pose proof (proj2 (Hf2 v HvV)) as X. revert X. clear. unfold pins_at. intros X. eapply Nat.le_lt_trans; [|exact X]. clear X.
      induction (incident v es) as [|k r IH]; auto. cbn [flat_map]. rewrite !app_length, map_length. unfold edge_input in *. lia.
Qed.
End V.
