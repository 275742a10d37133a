(** C48 for traditional graphs: the distributed graph handed to ParMETIS when every edge of the graph is stored in both directions. *)
From Verif Require Import Base GraphModel CsrProofs ConstructProofs GraphSpec AccessProofs AccessProofs2 CountProofs GraphTop GraphTop2 GraphIOProps Comm TagModel TagProps MigrateModel MigrateSpec MigrateProofs1 MigrateProofs2 MigrateProofs5 MigrateTop
  SplitModel SplitProofs ValidModel ValidProps ColorProofs2 ZoltanProps ParmetisModel ParmetisSpec ParmetisProofs ParmetisView ParmetisProps.

(* ------------------------------------------------------------------ *)
(** * Specification *)
(** [parts] is a distribution of the graph with arcs [A] (all of weight w0) over its ranks: both ends of an arc are vertices of
    the ranks that own them, rank r has exactly the arcs that start at a vertex it owns, and the right owners for the
    destinations on other ranks *)
Definition distributed_arcs (own : Z -> nat) (A : list (Z * Z)) (w0 : Z) (t : nat) (parts : list part_input) : Prop :=
  (forall a v, In a A -> In v [fst a; snd a] -> exists p, nth_error parts (own v) = Some p /\ In v (pi_verts p)) /\
  forall r p, nth_error parts r = Some p ->
    valid_input false (pi_verts p) (pi_vws p) (pi_tys p) /\
    (forall v, In v (pi_verts p) -> own v = r) /\
    exists es ws, nth_error (pi_tys p) t = Some (es, ws) /\ Forall (eq w0) (full_ews es ws) /\
      Permutation (map snd es) (map (fun a => [fst a; snd a]) (filter (fun a => Nat.eqb (own (fst a)) r) A)) /\
      (forall a, In a A -> own (fst a) = r -> own (snd a) <> r -> zfind (pi_owns p) (snd a) = Some (Z.of_nat (own (snd a)))).
Definition arc_dec (a b : Z * Z) : {a = b} + {a <> b}. Proof. decide equality; apply Z.eq_dec. Defined.
(** two vertices are linked by an arc; the weight of the link is w0 for every such arc *)
Definition arc_linked (A : list (Z * Z)) (v w : Z) : Prop := v <> w /\ In (v, w) A.
Definition arc_weight (A : list (Z * Z)) (w0 v w : Z) : Z := (Z.of_nat (count_occ arc_dec A (v, w)) * w0)%Z.

(* ------------------------------------------------------------------ *)
(** * One part *)
Definition tnb (w0 : Z) (es : list edge_input) (v : Z) : list (Z * Z) := filter (fun p => negb (Z.eqb (fst p) v)) (map (fun w => (w, w0)) (out_dests v es)).
Lemma in_tnb w0 es v w x : In (w, x) (tnb w0 es v) <-> w <> v /\ In w (out_dests v es) /\ x = w0.
Proof.
  unfold tnb. rewrite filter_In, in_map_iff. cbn [fst]. rewrite negb_true_iff, Z.eqb_neq. split.
  - intros ((w' & E & H) & N). inversion E; subst. auto.
  - intros (N & H & ->). split; auto. exists w. auto.
Qed.
Lemma tnb_keys w0 es v w : In w (map fst (tnb w0 es v)) <-> w <> v /\ In w (out_dests v es).
Proof.
  rewrite in_map_iff. split.
  - intros ((w' & x) & <- & H). apply in_tnb in H. cbn [fst]. tauto.
  - intros (N & H). exists (w, w0). split; auto. apply in_tnb. auto.
Qed.

Section V.
Variables (me : Z) (verts vws : list Z) (tys : list type_input) (owns : zmap Z) (g : graph) (t fuel : nat) (es : list edge_input) (ws : list Z) (w0 : Z).
Hypothesis HV : valid_input false verts vws tys.
Hypothesis HB : build_part me false verts vws tys owns = Some g.
Hypothesis Ht : nth_error tys t = Some (es, ws).
Hypothesis HW : Forall (eq w0) (full_ews es ws).
Hypothesis Hf1 : length verts < fuel.
Hypothesis Hf2 : length es + 2 < fuel.
Notation all := (verts ++ ghosts_of verts tys).
Notation HR := (proj1 (part_rep _ _ _ _ _ _ _ HV HB)).
Notation hd := (hnd verts tys).
Notation po := (part_of me verts owns).
Notation tot := (occ_of g verts (ghosts_of verts tys) es).
Notation HT := (nth_eff _ _ _ _ Ht).
Let HC := p_constructed _ _ _ _ _ _ _ HV HB.

Lemma tpos l m : l < length verts -> m < cnt_of l tot -> off tot l + m < length es.
Proof.
  intros Hl Hm. pose proof (off_S tot l) as X. pose proof (off_mono_le tot (S l) (length verts) ltac:(lia)) as Y.
  assert (Z : off tot (length verts) <= length es).
  { unfold off. rewrite count_keys_gen. etransitivity; [apply filter_len|]. unfold occ_of. rewrite (c_hyper _ _ _ _ _ _ HC). etransitivity; [apply occs_len_trad|]. unfold epins_of. now rewrite map_length. }
  lia.
Qed.
Lemma tcnt l v : nth_error verts l = Some v -> cnt_of l tot = length (out_dests v es) /\ vals_of l tot = map (idx all) (out_dests v es).
Proof. intros Hl. pose proof (vals_dests _ _ _ _ _ _ HC t es ws l v eq_refl Ht Hl) as E. split; auto. unfold cnt_of. rewrite E. apply map_length. Qed.
Lemma tcnt_le l v : nth_error verts l = Some v -> length (out_dests v es) <= length es.
Proof. intros _. unfold out_dests. clear. induction es as [|e es' IH]; [cbn; lia|]. cbn [flat_map length]. rewrite app_length. destruct (snd e) as [|u [|w ps]]; cbn [length]; [lia|lia|]. destruct (Z.eqb u v); cbn [length]; lia. Qed.
Lemma tweight i : i < length es -> eweight g (getEdge (ntypes g) i t) = Some w0.
Proof.
  intros L. destruct (nth_error es i) as [e|] eqn:Ei; [|apply nth_error_None in Ei; lia]. rewrite (w_edge _ _ _ _ _ _ HC t es ws i e Ht Ei).
  assert (Hw : ws = [] \/ length ws = length es) by (apply HV; eapply nth_error_In; eauto).
  rewrite (full_nth es ws i Hw L). f_equal. rewrite Forall_forall in HW. symmetry. apply HW. apply nth_In. now rewrite (full_len es ws Hw).
Qed.
Lemma dest_all v w : In w (out_dests v es) -> In w all.
Proof. intros H. eapply (c_incl _ _ _ _ _ _ HC); eauto. eapply out_dests_in; eauto. Qed.

(** the neighbour iterator: one destination per stored arc, with the handle of that arc *)
Lemma adj_t_trace l v : nth_error verts l = Some v ->
  exists it, adj_begin g (S l) t = Some it /\ ytrace g it (map (fun m => (hd (nth m (out_dests v es) 0%Z), getEdge (ntypes g) (off tot l + m) t)) (seq 0 (length (out_dests v es)))).
Proof.
  intros Hv. destruct (tcnt l v Hv) as (EC & EV). assert (Hl : l < length verts) by (apply nth_error_Some; congruence).
  assert (Hh : hyper g = false) by apply (p_hyper _ _ _ _ _ _ _ HV HB).
  destruct (gtype_ok _ _ _ _ _ HR _ _ _ HT) as (ed & E & HE & Hlt).
  assert (Eit : eit_vertex g (S l) t = Some (mk_eiter t (ntypes g) (off tot l) (cnt_of l tot) false)).
  { unfold eit_vertex. cbn [vlid obind]. rewrite E. cbn [obind]. rewrite (er_deg _ _ _ _ _ _ HE) by lia.
    cbn [obind]. rewrite (vdegree_ok _ _ _ _ _ HR t es _ l HT Hl). reflexivity. }
  unfold adj_begin. rewrite Eit. cbn [obind]. eexists. split; [reflexivity|].
  assert (G : forall j m pit edge c, m + j = cnt_of l tot ->
    ytrace g (mkGiter c (mkEiter (getEdge (ntypes g) (off tot l + m) t) (getEdge (ntypes g) (off tot l + cnt_of l tot) t) (ntypes g) false) pit edge)
      (map (fun m => (hd (nth m (out_dests v es) 0%Z), getEdge (ntypes g) (off tot l + m) t)) (seq m j))).
  { induction j as [|j IH]; intros m pit edge c Hm.
    - cbn [seq map ytrace]. eexists. unfold adj_step. rewrite Hh.
      cbn [gi_eit]. unfold eit_step. cbn [ei_end ei_loc]. replace m with (cnt_of l tot) by lia.
      rewrite Nat.leb_refl. cbn [obind]. unfold v_of. rewrite Hh. cbn. reflexivity.
    - assert (Lm : m < length (out_dests v es)) by lia.
      assert (Ev : nth_error (vals_of l tot) m = Some (idx all (nth m (out_dests v es) 0%Z))) by (rewrite EV, nth_error_map, (nth_error_nth' _ 0%Z) by auto; reflexivity).
      cbn [seq map ytrace fst snd]. split; [unfold hnd; lia|]. eexists. split; [|split].
      + unfold adj_step. rewrite Hh. cbn [gi_eit gi_count gi_pit]. unfold eit_step. cbn [ei_end ei_loc ei_nt ei_hyper].
        assert (Hlt2 : getEdge (ntypes g) (off tot l + m) t < getEdge (ntypes g) (off tot l + cnt_of l tot) t).
        { unfold getEdge. assert (ntypes g * (off tot l + m) < ntypes g * (off tot l + cnt_of l tot)) by (apply Nat.mul_lt_mono_pos_l; lia). lia. }
        destruct (Nat.leb_spec (getEdge (ntypes g) (off tot l + cnt_of l tot) t) (getEdge (ntypes g) (off tot l + m) t)); [lia|].
        rewrite Hh. cbn [andb obind].
        pose proof (v_of_ok _ _ _ _ _ HR t es _ l m _ Hh HT Hl Ev) as Hvo. rewrite Hvo. cbn [obind]. unfold hnd. reflexivity.
      + reflexivity.
      + replace (getEdge (ntypes g) (off tot l + m) t + ntypes g) with (getEdge (ntypes g) (off tot l + S m) t).
        2:{ unfold getEdge. replace (off tot l + S m) with (off tot l + m + 1) by lia. rewrite Nat.mul_add_distr_l. lia. }
        apply IH. lia. }
  specialize (G (cnt_of l tot) 0 None 0 0 eq_refl). rewrite EC in G at 2.
  unfold mk_eiter. unfold getEdge in G at 1 2. rewrite Nat.add_0_r in G.
  replace (1 + t + ntypes g * off tot l) with (ntypes g * off tot l + t + 1) by lia.
  replace (1 + t + ntypes g * (off tot l + cnt_of l tot)) with (ntypes g * (off tot l + cnt_of l tot) + t + 1) by lia.
  exact G.
Qed.

Lemma view_trad : view t fuel g me verts (full_vws verts vws) (tnb w0 es) hd po.
Proof.
  destruct (c_counts _ _ _ _ _ _ HC) as (Nv & _). constructor.
  - apply (p_self _ _ _ _ _ _ _ HV HB).
  - exact Nv.
  - apply HV.
  - apply (all_verts_ok _ _ _ _ _ HR); auto.
  - intros v i Hi. destruct (nth_verts verts tys i v Hi) as [Ha _]. split.
    + pose proof (c_vgid _ _ _ _ _ _ HC i v Ha) as X. unfold getVertex in X. now rewrite Nat.add_1_r in X.
    + unfold hnd. f_equal. apply nth_idx; auto. apply (rp_nd _ _ _ _ _ HR).
  - intros v i Hi. pose proof (w_vertex _ _ _ _ _ _ HC i v Hi) as X. unfold getVertex in X. rewrite Nat.add_1_r in X. eexists. split; [|exact X].
    unfold full_vws. assert (i < length verts) by (apply nth_error_Some; congruence). destruct (nth_error vws i) eqn:E.
    + rewrite nth_error_app1; auto. apply nth_error_Some. congruence.
    + apply nth_error_None in E. rewrite nth_error_app2 by auto. apply nth_error_repeat_lt. lia.
  - unfold full_vws. rewrite app_length, repeat_length. pose proof (proj1 (proj2 HV)). lia.
  - intros v w x Hv Hw. apply in_tnb in Hw as (N & Hw & ->). split; auto.
    assert (Hwa : In w all) by (eapply dest_all; eauto). split; [apply (vgid_idx _ _ _ _ _ HR); auto|]. split; [unfold hnd; discriminate|].
    pose proof (p_owner _ _ _ _ _ _ _ HV HB (idx all w) w (idx_nth _ _ Hwa)) as X. unfold getVertex in X. rewrite Nat.add_1_r in X. exact X.
  - intros v i Hi. destruct (tcnt i v Hi) as (EC & EV). assert (Hl : i < length verts) by (apply nth_error_Some; congruence). pose proof (tcnt_le i v Hi) as LE.
    assert (Ehv : i = idx all v) by (symmetry; apply nth_idx; [apply (rp_nd _ _ _ _ _ HR)|apply nth_verts; auto]).
    assert (HvA : In v all) by (apply in_or_app; left; eapply nth_error_In; eauto).
    exists (concat (map (fun m => if i =? idx all (nth m (out_dests v es) 0%Z) then [S i] else [S i; hd (nth m (out_dests v es) 0%Z)]) (seq 0 (length (out_dests v es))))). split.
    + unfold pins_around. rewrite (vertex_edges_trad _ _ _ _ _ HR t es _ i fuel (p_hyper _ _ _ _ _ _ _ HV HB) HT Hl) by lia. cbn [obind].
      assert (ES : seq (off tot i) (cnt_of i tot) = map (fun m => off tot i + m) (seq 0 (length (out_dests v es)))).
      { rewrite EC. generalize (length (out_dests v es)). clear. intros k. generalize (off tot i). intros a. assert (X : forall b, seq (a + b) k = map (fun m => a + m) (seq b k)) by (induction k as [|k IH]; intros b; cbn [seq map]; [auto|]; f_equal; rewrite <- IH; f_equal; lia). rewrite <- X, Nat.add_0_r. reflexivity. }
      rewrite ES, map_map, mapM_map. rewrite mapM_some with (h := fun m => if i =? idx all (nth m (out_dests v es) 0%Z) then [S i] else [S i; hd (nth m (out_dests v es) 0%Z)]); [reflexivity|].
      intros m Hm. apply in_seq in Hm. apply (edge_pins_trad _ _ _ _ _ t es _ i m (idx all (nth m (out_dests v es) 0%Z)) fuel HR (p_hyper _ _ _ _ _ _ _ HV HB) HT Hl).
      * rewrite EV, nth_error_map, (nth_error_nth' _ 0%Z) by lia. reflexivity.
      * lia.
    + intros h. split.
      * intros (Hh & N). apply in_concat in Hh as (l & Hl' & Hh). apply in_map_iff in Hl' as (m & <- & Hm). apply in_seq in Hm. destruct (Nat.eqb_spec i (idx all (nth m (out_dests v es) 0%Z))) as [E|E].
        -- destruct Hh as [<-|[]]. congruence.
        -- destruct Hh as [<-|[<-|[]]]; [congruence|]. exists (nth m (out_dests v es) 0%Z). split; auto. apply tnb_keys. split; [intros X; rewrite X in E; congruence|]. apply nth_In. lia.
      * intros (w & Hw & ->). apply tnb_keys in Hw as (N & Hw). destruct (In_nth _ _ 0%Z Hw) as (m & Lm & Em).
        assert (E : i <> idx all w). { intros X. apply N. eapply idx_inj; [| |rewrite <- X; exact Ehv]; auto. eapply dest_all; eauto. }
        split; [|unfold hnd; lia]. apply in_concat. exists [S i; hd w]. split; [|right; left; auto]. apply in_map_iff. exists m. rewrite Em. destruct (Nat.eqb_spec i (idx all w)); [congruence|]. split; auto. apply in_seq. lia.
  - intros v i Hi. destruct (tcnt i v Hi) as (EC & EV). assert (Hl : i < length verts) by (apply nth_error_Some; congruence). pose proof (tcnt_le i v Hi) as LE.
    assert (Ehv : S i = hd v) by (unfold hnd; f_equal; symmetry; apply nth_idx; [apply (rp_nd _ _ _ _ _ HR)|apply nth_verts; auto]).
    assert (HvA : In v all) by (apply in_or_app; left; eapply nth_error_In; eauto).
    destruct (adj_t_trace i v Hi) as (it & E & Y). exists it. split; auto. intros m. rewrite (weigh_trace g (S i) (fun _ => w0) _ it fuel m Y).
    + f_equal. f_equal. rewrite Ehv. unfold tnb.
      assert (ED : out_dests v es = map (fun m => nth m (out_dests v es) 0%Z) (seq 0 (length (out_dests v es)))).
      { apply nth_error_ext. intros k. rewrite nth_error_map. destruct (Nat.lt_ge_cases k (length (out_dests v es))) as [L|L].
        - rewrite nth_error_seq by auto. cbn. now apply nth_error_nth'.
        - rewrite (proj2 (nth_error_None _ _)) by auto. rewrite (proj2 (nth_error_None _ _)); auto. now rewrite seq_length. }
      assert (Hin : forall m, In m (seq 0 (length (out_dests v es))) -> In (nth m (out_dests v es) 0%Z) all).
      { intros k Hk. apply in_seq in Hk. eapply dest_all. apply nth_In. lia. }
      etransitivity; [|rewrite ED; reflexivity].
      revert Hin. generalize (seq 0 (length (out_dests v es))) as L. induction L as [|k L IH]; intros Hin; [reflexivity|]. cbn [map filter fst].
      assert (Eq : (hd (nth k (out_dests v es) 0%Z) =? hd v) = (nth k (out_dests v es) 0 =? v)%Z).
      { destruct (Z.eqb_spec (nth k (out_dests v es) 0%Z) v) as [->|N]; [apply Nat.eqb_refl|]. apply Nat.eqb_neq. unfold hnd. intros X. apply N. injection X as X. eapply idx_inj; [| |exact X]; auto. apply Hin. left; auto. }
      rewrite Eq. destruct (negb _); cbn [map fst snd]; [f_equal|]; apply IH; intros; apply Hin; right; auto.
    + intros x e He. apply in_map_iff in He as (k & Ek & Hk). apply in_seq in Hk. injection Ek as _ <-. apply tweight. apply tpos; auto. lia.
    + rewrite map_length, seq_length. lia.
Qed.
End V.

(* ------------------------------------------------------------------ *)
(** * All parts *)
Lemma pairs_inj (l l' : list (Z * Z)) : Permutation (map (fun a => [fst a; snd a]) l) (map (fun a => [fst a; snd a]) l') -> Permutation l l'.
Proof.
  intros H. apply (Permutation_map (fun p => (nth 0 p 0%Z, nth 1 p 0%Z))) in H. rewrite !map_map in H. cbn in H.
  rewrite (map_ext _ (fun x => x)) in H by (intros [? ?]; reflexivity). rewrite map_id in H. rewrite (map_ext _ (fun x => x)) in H by (intros [? ?]; reflexivity). now rewrite map_id in H.
Qed.
(** the destinations of v among the arcs of its part are its out-neighbours in the whole graph *)
Lemma dests_perm v (es : list edge_input) (B : list (Z * Z)) : Permutation (map snd es) (map (fun a => [fst a; snd a]) B) ->
  Permutation (out_dests v es) (map snd (filter (fun a => Z.eqb (fst a) v) B)).
Proof.
  intros P. assert (X : out_dests v es = flat_map (fun ps => match ps with u :: w :: _ => if Z.eqb u v then [w] else [] | _ => [] end) (map snd es)).
  { unfold out_dests. clear. induction es as [|e l IH]; [reflexivity|]. cbn [flat_map map]. now rewrite IH. }
  rewrite X. rewrite (Permutation_flat_map _ P). clear. apply Permutation_refl'. induction B as [|a B IH]; [reflexivity|]. cbn [map flat_map filter]. rewrite IH. destruct (Z.eqb (fst a) v); reflexivity.
Qed.
Lemma in_out v w (B : list (Z * Z)) : In w (map snd (filter (fun a => Z.eqb (fst a) v) B)) <-> In (v, w) B.
Proof.
  rewrite in_map_iff. split.
  - intros ([a b] & <- & H). apply filter_In in H as (H & E). cbn in E |- *. apply Z.eqb_eq in E. now subst.
  - intros H. exists (v, w). split; auto. apply filter_In. split; auto. cbn. apply Z.eqb_refl.
Qed.
Lemma wgt_dests v w w0 l : w <> v -> val w (filter (fun p => negb (Z.eqb (fst p) v)) (map (fun u => (u, w0)) l)) = (Z.of_nat (count_occ Z.eq_dec l w) * w0)%Z.
Proof. intros N. rewrite val_other by auto. apply val_pins. Qed.
Lemma count_out v w (B : list (Z * Z)) : count_occ Z.eq_dec (map snd (filter (fun a => Z.eqb (fst a) v) B)) w = count_occ arc_dec B (v, w).
Proof.
  induction B as [|[a b] B IH]; [reflexivity|]. cbn [filter fst]. destruct (Z.eqb_spec a v) as [->|N].
  - cbn [map snd count_occ]. rewrite IH. destruct (Z.eq_dec b w) as [->|E]; destruct (arc_dec _ _); congruence.
  - rewrite count_occ_cons_neq by congruence. exact IH.
Qed.
Lemma count_part (own : Z -> nat) r v w (A : list (Z * Z)) : own v = r -> count_occ arc_dec (filter (fun a => Nat.eqb (own (fst a)) r) A) (v, w) = count_occ arc_dec A (v, w).
Proof.
  intros Ov. induction A as [|[a b] A IH]; [reflexivity|]. cbn [filter fst]. destruct (Nat.eqb_spec (own a) r) as [E|E].
  - cbn [count_occ]. rewrite IH. reflexivity.
  - rewrite count_occ_cons_neq by congruence. exact IH.
Qed.

Lemma darcs_owned own A w0 t parts : distributed_arcs own A w0 t parts -> owned own parts.
Proof. intros (_ & HD) r p Hr. destruct (HD r p Hr) as ((V & _) & O & _). auto. Qed.

Section All.
Variables (own : Z -> nat) (A : list (Z * Z)) (w0 : Z) (t fuel : nat) (parts : list part_input) (gs : list graph) (ord : list (nat * Z) -> list (nat * Z)).
Hypothesis HD : distributed_arcs own A w0 t parts.
Hypothesis HB : build_parts false parts = Some gs.
Hypothesis HF : forall p, In p parts -> length (pi_verts p) < fuel.
Hypothesis HFA : length A + 2 < fuel.
Hypothesis Hord : forall l, Permutation (ord l) l.
Hypothesis HS : forall v w, In (v, w) A -> In (w, v) A.

Lemma trad_facts r g : nth_error gs r = Some g -> exists p nb hd ow, nth_error parts r = Some p /\
  view t fuel g (Z.of_nat r) (pi_verts p) (full_vws (pi_verts p) (pi_vws p)) nb hd ow /\
  (forall v w, In v (pi_verts p) -> In w (map fst (nb v)) <-> arc_linked A v w) /\
  (forall v w, In v (pi_verts p) -> w <> v -> wgt nb v w = arc_weight A w0 v w) /\
  (forall v w, In v (pi_verts p) -> In w (map fst (nb v)) -> ow w = Z.of_nat (own w)).
Proof.
  intros Hg. destruct (built_nth _ _ _ _ _ HB Hg) as (p & Hp & B). destruct HD as (HP & HQ). destruct (HQ r p Hp) as (V & O & es & ws & Ht & W0 & PM & OW).
  assert (LE : length es <= length A).
  { pose proof (Permutation_length PM) as X. rewrite !map_length in X. etransitivity; [apply Nat.eq_le_incl; exact X|]. apply filter_len. }
  exists p, (tnb w0 es), (hnd (pi_verts p) (pi_tys p)), (part_of (Z.of_nat r) (pi_verts p) (pi_owns p)). split; auto.
  assert (OD : forall v w, In v (pi_verts p) -> In w (out_dests v es) <-> In (v, w) A).
  { intros v w Hv. rewrite <- (in_out v w A). pose proof (dests_perm v _ _ PM) as X. split; intros H.
    - apply (Permutation_in _ X) in H. apply in_out, filter_In in H as (H & _). now apply in_out.
    - eapply Permutation_in; [apply Permutation_sym, X|]. apply in_out. apply in_out in H. apply filter_In. split; auto. cbn [fst]. apply Nat.eqb_eq. auto. }
  split. { apply view_trad with (ws := ws); auto. - apply HF. eapply nth_error_In; eauto. - lia. }
  split. { intros v w Hv. rewrite tnb_keys, (OD v w Hv). unfold arc_linked. intuition congruence. }
  split.
  - intros v w Hv N. change (val w (tnb w0 es v) = arc_weight A w0 v w). unfold tnb. rewrite wgt_dests by auto. unfold arc_weight. f_equal. f_equal.
    rewrite (proj1 (Permutation_count_occ Z.eq_dec _ _) (dests_perm v _ _ PM) w), count_out. apply count_part. auto.
  - intros v w Hv Hw. apply tnb_keys in Hw as (N & Hw). apply (OD v w Hv) in Hw. unfold part_of. destruct (in_dec Z.eq_dec w (pi_verts p)) as [I|I]; [now rewrite (O w I)|].
    pose proof (OW (v, w) Hw) as X. cbn [fst snd] in X. rewrite X; auto. intros E. apply I. destruct (HP (v, w) w Hw ltac:(cbn; auto)) as (q & Hq & Hwq). congruence.
Qed.

Lemma arcs_graph : parmetis_input false t fuel ord (starting gs) (fun dist csrs =>
  dist = first_numbers parts /\ length csrs = length parts /\
  forall r p c, nth_error parts r = Some p -> nth_error csrs r = Some c -> exists rows,
    is_csr rows c /\ c_vwgts c = ainit (full_vws (pi_verts p) (pi_vws p)) /\
    Forall2 (right_row (number parts) (arc_linked A) (arc_weight A w0)) (pi_verts p) rows).
Proof.
  apply links_graph with (own := own); auto.
  - apply (built_len _ _ _ HB).
  - eapply darcs_owned; eauto.
  - intros v w (N & H). split; auto. split; [apply (proj1 HD (v, w) w H); cbn; auto|]. split; auto.
  - apply trad_facts.
Qed.
End All.

(** A traditional graph that has both directions of every edge, all of one weight (the code attaches a weight to a CSR position,
    not to an edge: C07): the rows of each part are those of its vertices in order, each has every neighbour once, under its new
    number, with the weight times the number of arcs to it.  Without the reverse direction the neighbour gets the number 0:
    C48_directed_refuted. *)
Theorem C48_traditional_partial : forall own A w0 t fuel parts gs ord,
  distributed_arcs own A w0 t parts -> build_parts false parts = Some gs -> (forall p, In p parts -> length (pi_verts p) < fuel) -> length A + 2 < fuel ->
  (forall l, Permutation (ord l) l) -> (forall v w, In (v, w) A -> In (w, v) A) ->
  parmetis_input false t fuel ord (starting gs) (fun dist csrs =>
    dist = first_numbers parts /\ length csrs = length parts /\
    forall r p c, nth_error parts r = Some p -> nth_error csrs r = Some c -> exists rows,
      is_csr rows c /\ c_vwgts c = ainit (full_vws (pi_verts p) (pi_vws p)) /\
      Forall2 (right_row (number parts) (arc_linked A) (arc_weight A w0)) (pi_verts p) rows).
Proof. intros. now apply arcs_graph with (own := own). Qed.

(** The entries of the matrix: one per ordered pair of neighbours. *)
Theorem C48_traditional_entries_partial : forall own A w0 t fuel parts gs ord,
  distributed_arcs own A w0 t parts -> build_parts false parts = Some gs -> (forall p, In p parts -> length (pi_verts p) < fuel) -> length A + 2 < fuel ->
  (forall l, Permutation (ord l) l) -> (forall v w, In (v, w) A -> In (w, v) A) ->
  parmetis_input false t fuel ord (starting gs) (fun dist csrs => forall a b x,
    entry dist csrs a b x <-> exists v w, a = number parts v /\ b = number parts w /\ arc_linked A v w /\ x = arc_weight A w0 v w).
Proof.
  intros own A w0 t fuel parts gs ord HD HB HF HFA Hord HS. eapply parmetis_mono; [|apply (C48_traditional_partial own A w0 t fuel parts gs ord HD HB HF HFA Hord HS)].
  intros dist csrs (-> & LC & HR) a b x. destruct (numbering_gen _ _ (darcs_owned _ _ _ _ _ HD)) as (NUM & _). unfold entry. split.
  - intros (r & c & d & i & j & lo & hi & Hc & Hd & -> & E). assert (Lr : r < length parts) by (rewrite <- LC; apply nth_error_Some; congruence).
    destruct (nth_error parts r) as [p|] eqn:Hp; [|apply nth_error_None in Hp; lia]. destruct (HR r p c Hp Hc) as (rows & CS & _ & F2).
    destruct (proj1 (csr_entry rows c i b x CS)) as (row & Er & Hin); [exists j, lo, hi; exact E|].
    destruct (Forall2_nth_r _ _ _ _ _ _ _ F2 Er) as (v & Hv & (l & _ & Hl & ->)). apply in_map_iff in Hin as (w & Ew & Hw). inversion Ew; subst.
    exists v, w. destruct (NUM r p i v Hp Hv) as (d' & Hd' & En). split; [congruence|]. split; auto. split; [apply Hl; auto|auto].
  - intros (v & w & -> & -> & HL & ->). pose proof HL as (N & Hin). destruct (proj1 HD (v, w) v Hin ltac:(cbn; auto)) as (p & Hp & Iv).
    apply In_nth_error in Iv as (i & Hi). assert (Lr : own v < length csrs) by (rewrite LC; apply nth_error_Some; congruence). destruct (nth_error csrs (own v)) as [c|] eqn:Hc; [|apply nth_error_None in Hc; lia].
    destruct (HR _ p c Hp Hc) as (rows & CS & _ & F2). destruct (NUM _ p i v Hp Hi) as (d & Hd & En).
    destruct (Forall2_nth_l _ _ _ _ _ _ _ F2 Hi) as (row & Er & (l & _ & Hl & ->)).
    destruct (proj2 (csr_entry rows c i (number parts w) (arc_weight A w0 v w) CS)) as (j & lo & hi & E).
    { eexists. split; [exact Er|]. apply in_map_iff. exists w. split; auto. now apply Hl. }
    exists (own v), c, d, i, j, lo, hi. auto.
Qed.

(** With the two directions equally often the matrix is symmetric, without diagonal, as ParMETIS requires. *)
Theorem C48_traditional_symmetric_partial : forall own A w0 t fuel parts gs ord,
  distributed_arcs own A w0 t parts -> build_parts false parts = Some gs -> (forall p, In p parts -> length (pi_verts p) < fuel) -> length A + 2 < fuel ->
  (forall l, Permutation (ord l) l) -> (forall v w, count_occ arc_dec A (v, w) = count_occ arc_dec A (w, v)) ->
  parmetis_input false t fuel ord (starting gs) (fun dist csrs => forall a b x, entry dist csrs a b x -> entry dist csrs b a x /\ a <> b).
Proof.
  intros own A w0 t fuel parts gs ord HD HB HF HFA Hord HS.
  assert (HS' : forall v w, In (v, w) A -> In (w, v) A) by (intros v w H; apply (count_occ_In arc_dec) in H; apply (count_occ_In arc_dec); rewrite <- HS; auto).
  eapply parmetis_mono; [|apply (C48_traditional_entries_partial own A w0 t fuel parts gs ord HD HB HF HFA Hord HS')].
  intros dist csrs HE a b x H. apply HE in H as (v & w & -> & -> & HL & ->). destruct HL as (N & Hin). split.
  - apply HE. exists w, v. split; auto. split; auto. split; [split; auto|]. unfold arc_weight. now rewrite HS.
  - intros E. apply N. destruct (numbering_gen _ _ (darcs_owned _ _ _ _ _ HD)) as (_ & INJ & _). destruct HD as (HP & _). apply INJ; auto; unfold all_vertices; apply in_concat.
    + destruct (HP (v, w) v Hin ltac:(cbn; auto)) as (p & Hp & I). exists (pi_verts p). split; auto. apply in_map. eapply nth_error_In; eauto.
    + destruct (HP (v, w) w Hin ltac:(cbn; auto)) as (p & Hp & I). exists (pi_verts p). split; auto. apply in_map. eapply nth_error_In; eauto.
Qed.

(* ------------------------------------------------------------------ *)
(** * A case: a path 10 - 11 - 12 with a double edge and a self loop *)
Definition ex48_A : list (Z * Z) := [(10, 11); (11, 10); (11, 12); (12, 11); (11, 12); (12, 11); (12, 12)]%Z.
Definition ex48_town (v : Z) : nat := if (v <? 12)%Z then 0 else 1.
Definition ex48_tp0 := mkPart [11;10]%Z [4]%Z [([(1, [10;11]); (2, [11;10]); (3, [11;12]); (5, [11;12])], [2;2;2;2])]%Z [(12, 1)]%Z.
Definition ex48_tp1 := mkPart [12]%Z [] [([(7, [12;12]); (4, [12;11]); (6, [12;11])], [2;2;2])]%Z [(11, 0)]%Z.
Example C48_traditional_hyps : distributed_arcs ex48_town ex48_A 2 0 [ex48_tp0; ex48_tp1] /\ (forall p, In p [ex48_tp0; ex48_tp1] -> length (pi_verts p) < 20) /\
  (forall v w, count_occ arc_dec ex48_A (v, w) = count_occ arc_dec ex48_A (w, v)) /\ exists gs, build_parts false [ex48_tp0; ex48_tp1] = Some gs.
Proof.
  split; [split|split; [|split]].
  - intros a v Ha Hv. cbn in Ha. repeat (destruct Ha as [<-|Ha]; [cbn in Hv; repeat (destruct Hv as [<-|Hv]; [eexists; split; [reflexivity|cbn; tauto]|]); destruct Hv|]); destruct Ha.
  - intros r p Hr. destruct r as [|[|r]]; [| |destruct r; discriminate Hr]; inversion Hr; subst; cbn [pi_verts pi_vws pi_tys pi_owns ex48_tp0 ex48_tp1].
    + split; [split; [repeat constructor; cbn; intuition congruence|split; [cbn; lia|split; [cbn; lia|]]]; intros es ws [H|[]]; inversion H; subst; split; [auto|]; intros _ e He; cbn in He; repeat (destruct He as [<-|He]; [reflexivity|]); destruct He|].
      split; [intros v [<-|[<-|[]]]; reflexivity|]. do 2 eexists. split; [reflexivity|]. split; [repeat constructor|]. split; [cbn; reflexivity|].
      intros a Ha E N. cbn in Ha. repeat (destruct Ha as [<-|Ha]; [try reflexivity; try (exfalso; apply N; reflexivity); discriminate E|]); destruct Ha.
    + split; [split; [repeat constructor; cbn; intuition congruence|split; [cbn; lia|split; [cbn; lia|]]]; intros es ws [H|[]]; inversion H; subst; split; [auto|]; intros _ e He; cbn in He; repeat (destruct He as [<-|He]; [reflexivity|]); destruct He|].
      split; [intros v [<-|[]]; reflexivity|]. do 2 eexists. split; [reflexivity|]. split; [repeat constructor|]. split.
      * cbn. apply perm_trans with (l' := [[12;11]; [12;12]; [12;11]]%Z); constructor; constructor; constructor.
      * intros a Ha E N. cbn in Ha. repeat (destruct Ha as [<-|Ha]; [try reflexivity; try (exfalso; apply N; reflexivity); discriminate E|]); destruct Ha.
  - intros p [<-|[<-|[]]]; cbn; lia.
  - intros v w. cbn [count_occ ex48_A]. repeat match goal with |- context [arc_dec ?a ?b] => destruct (arc_dec a b) end; try reflexivity; exfalso; congruence.
  - eexists. vm_compute. reflexivity.
Qed.
Example C48_traditional_nontrivial : exists gs c0 c1, build_parts false [ex48_tp0; ex48_tp1] = Some gs /\
  run_parmetis false 0 20 (fun l => l) (starting gs) = Some ([0; 2; 3]%Z, [c0; c1]) /\
  c_xadj c0 = ainit [0; 2; 3]%Z /\ c_adjncy c0 = ainit [1; 2; 0]%Z /\ c_ewgts c0 = ainit [2; 4; 2]%Z /\ c_vwgts c0 = ainit [4; 1]%Z /\
  c_xadj c1 = ainit [0; 1]%Z /\ c_adjncy c1 = ainit [0]%Z /\ c_ewgts c1 = ainit [4]%Z.
Proof.
  eexists. eexists. eexists. split; [vm_compute; reflexivity|]. split; [vm_compute; reflexivity|].
  split; [vm_compute; reflexivity|]. split; [vm_compute; reflexivity|]. split; [vm_compute; reflexivity|]. split; [vm_compute; reflexivity|]. split; [vm_compute; reflexivity|]. split; vm_compute; reflexivity.
Qed.

Print Assumptions C48_traditional_partial.
Print Assumptions C48_traditional_entries_partial.
Print Assumptions C48_traditional_symmetric_partial.
