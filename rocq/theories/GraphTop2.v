(** More lemmas behind GraphProps.v: owners, residence, weights, neighbours, counts, array overloads, removeEdges. *)
From Verif Require Import Base GraphModel CsrProofs ConstructProofs GraphSpec AccessProofs AccessProofs2 CountProofs GraphTop.

Lemma memZ_dec v l (A : Type) (a b : A) : (if memZ v l then a else b) = (if in_dec Z.eq_dec v l then a else b).
Proof. destruct (memZ v l) eqn:E; destruct (in_dec Z.eq_dec v l) as [H|H]; auto.
  - apply memZ_In in E. tauto. - apply memZ_In in H. congruence. Qed.

Section P.
Variables (me : Z) (hg : bool) (verts vws : list Z) (tys : list type_input) (owns : zmap Z) (g : graph).
Hypothesis HV : valid_input hg verts vws tys.
Hypothesis HB : build_part me hg verts vws tys owns = Some g.
Notation all := (verts ++ ghosts_of verts tys).
Notation HR := (proj1 (part_rep _ _ _ _ _ _ _ HV HB)).
Notation HO := (proj1 (proj2 (part_rep _ _ _ _ _ _ _ HV HB))).
Notation po := (part_of me verts owns).

Lemma p_constructed : constructed me hg verts vws tys g.
Proof. split; auto. right. eauto. Qed.
Lemma p_self : self g = me. Proof. apply (part_rep _ _ _ _ _ _ _ HV HB). Qed.
Lemma p_hyper : hyper g = hg. Proof. apply (part_rep _ _ _ _ _ _ _ HV HB). Qed.

Lemma owner_spec_part v : owner_spec g verts (look owns) v = po v.
Proof. unfold owner_spec, part_of, look. rewrite p_self. apply memZ_dec. Qed.

Lemma p_owner l v : nth_error all l = Some v -> owner g (getVertex l) = Some (po v).
Proof.
  intros H. unfold getVertex. rewrite Nat.add_1_r. rewrite <- (nth_idx all l v) by (auto; apply HR).
  rewrite (owner_ok _ _ _ _ _ _ HR HO); [now rewrite owner_spec_part|eapply nth_error_In; eauto].
Qed.
Lemma p_owner_beyond l : length all <= l -> owner g (getVertex l) = Some (-1)%Z.
Proof.
  intros H. unfold getVertex. rewrite Nat.add_1_r. unfold owner. cbn [vlid].
  destruct HR as [Hn Hg _ _ _ _ _ _ _]. rewrite Hn, Hg. rewrite app_length in H.
  destruct (Nat.leb_spec (length verts + length (ghosts_of verts tys)) l); auto; lia.
Qed.

Section Hy.
Hypothesis Hg : hg = true.
Variables (t : nat) (es : list edge_input) (ws : list Z) (i : nat) (gid : Z) (ps : list Z).
Hypothesis Ht : nth_error tys t = Some (es, ws).
Hypothesis Hi : nth_error es i = Some (gid, ps).
Notation HT := (nth_eff _ _ _ _ Ht).
Lemma hyp : hyper g = true. Proof. rewrite p_hyper; auto. Qed.

Lemma p_residence : getResidence g (getEdge (ntypes g) i t) = Some (map po ps).
Proof. rewrite (getResidence_hyper _ _ _ _ _ _ HR HO t es (eff_wgts ws (length es)) i gid ps hyp HT Hi).
  f_equal. apply map_ext. intros; apply owner_spec_part. Qed.

Lemma p_resident peer : exists b, isResidentOn g (getEdge (ntypes g) i t) peer = Some b /\
   (b = true <-> exists v, In v ps /\ po v = peer).
Proof.
  rewrite (isResidentOn_hyper _ _ _ _ _ _ HR HO t es (eff_wgts ws (length es)) i gid ps peer hyp HT Hi).
  eexists. split; [reflexivity|]. rewrite memZ_In, in_map_iff. split; intros (v & A & B); exists v; rewrite owner_spec_part in *; auto.
Qed.

Lemma p_cut fuel : (forall v, In v ps -> po v <> -1)%Z -> length ps < fuel ->
  exists b, isCut g (getEdge (ntypes g) i t) fuel = Some b /\
   (b = true <-> exists v w, In v ps /\ In w ps /\ po v <> po w).
Proof.
  intros Hne Hf.
  rewrite (isCut_hyper _ _ _ _ _ _ HR HO t es (eff_wgts ws (length es)) i gid ps fuel hyp HT Hi); auto.
  2:{ intros v Hv. rewrite owner_spec_part. auto. }
  eexists. split; [reflexivity|]. erewrite map_ext by apply owner_spec_part. clear - ps.
  unfold cut_spec. destruct ps as [|a r]; cbn [map].
  - split; [discriminate|]. intros (v & w & [] & _).
  - rewrite existsb_exists. split.
    + intros (x & Hx & Hn). apply in_map_iff in Hx as (w & <- & Hw). apply negb_true_iff, Z.eqb_neq in Hn.
      exists w, a. repeat split; auto. right; auto. left; auto.
    + intros (v & w & Hv & Hw & N).
      assert (exists x, In x r /\ po x <> po a) as (x & Hx & Hn).
      { destruct (Z.eq_dec (po v) (po a)) as [E|E].
        - exists w. destruct Hw as [->|Hw]; [congruence|]. split; auto. congruence.
        - exists v. destruct Hv as [->|Hv]; [congruence|]. auto. }
      exists (po x). split; [now apply in_map|]. apply negb_true_iff, Z.eqb_neq. auto.
Qed.
End Hy.

Section Tr.
Hypothesis Hg : hg = false.
Variables (t : nat) (es : list edge_input) (ws : list Z).
Hypothesis Ht : nth_error tys t = Some (es, ws).
Notation HT := (nth_eff _ _ _ _ Ht).
Notation tot := (occ_of g verts (ghosts_of verts tys) es).

Lemma tr_row l v m w : nth_error verts l = Some v -> nth_error (out_dests v es) m = Some w ->
  nth_error (vals_of l tot) m = Some (idx all w) /\ l < length verts /\ In w all /\ l = idx all v /\ In v all.
Proof.
  intros Hl Hm. rewrite (vals_dests _ _ _ _ _ _ p_constructed t es ws l v Hg Ht Hl).
  rewrite nth_error_map, Hm. destruct (nth_verts verts tys l v Hl) as [Ha L]. repeat split; auto.
  - eapply (c_incl _ _ _ _ _ _ p_constructed); eauto. eapply out_dests_in. eapply nth_error_In; eauto.
  - symmetry. apply nth_idx; auto. apply HR.
  - eapply nth_error_In; eauto.
Qed.

(** the m-th out-edge of the local vertex v is cut exactly when its destination lives elsewhere *)
Lemma p_cut_trad l v fuel hs m h w : nth_error verts l = Some v ->
  vertex_edges g (getVertex l) t fuel = Some hs -> length (out_dests v es) < fuel ->
  nth_error hs m = Some h -> nth_error (out_dests v es) m = Some w -> (me <> -1)%Z -> 
  isCut g h 3 = Some (negb (Z.eqb (po w) me)).
Proof.
  intros Hl Hv Hf Hh Hw Hme. destruct (tr_row l v m w Hl Hw) as (Hm & L & Hin & El & Hinv).
  assert (Hc : cnt_of l tot = length (out_dests v es)).
  { unfold cnt_of. rewrite (vals_dests _ _ _ _ _ _ p_constructed t es ws l v Hg Ht Hl). apply map_length. }
  unfold getVertex in Hv. rewrite Nat.add_1_r in Hv.
  rewrite (vertex_edges_trad _ _ _ _ _ HR t es (eff_wgts ws (length es)) l fuel) in Hv; auto; [|rewrite p_hyper; auto|apply HT|lia].
  inversion Hv; subst hs; clear Hv. rewrite nth_error_map in Hh. destruct (nth_error (seq (off tot l) (cnt_of l tot)) m) as [p|] eqn:Ep; [|discriminate].
  assert (m < cnt_of l tot) by (rewrite <- (seq_length (cnt_of l tot) (off tot l)); apply nth_error_Some; congruence).
  rewrite nth_error_seq in Ep by auto. inversion Ep; subst p. inversion Hh; subst h. clear Ep Hh.
  pose proof (edge_pins_trad _ _ _ _ _ t es (eff_wgts ws (length es)) l m (idx all w) 3 HR ltac:(rewrite p_hyper; auto) HT L Hm ltac:(lia)) as Hp.
  unfold edge_pins in Hp. unfold isCut. destruct (pins_begin g (getEdge (ntypes g) (off tot l + m) t)) as [it|]; [|discriminate].
  cbn [obind] in *.
  assert (Hov : owner g (S l) = Some me).
  { rewrite El. rewrite (owner_ok _ _ _ _ _ _ HR HO v Hinv), owner_spec_part. unfold part_of. destruct (in_dec Z.eq_dec v verts); auto.
    exfalso. apply n. eapply nth_error_In; eauto. }
  assert (How : owner g (S (idx all w)) = Some (po w)).
  { rewrite (owner_ok _ _ _ _ _ _ HR HO w Hin), owner_spec_part. auto. }
  assert (D1 : forall f it l, drain (pit_step g) f it = Some l -> exists f', f = S f' /\ match l with [] => exists it', pit_step g it = Some (0, it')
      | h :: r => h <> 0 /\ exists it', pit_step g it = Some (h, it') /\ drain (pit_step g) f' it' = Some r end).
  { intros [|f] it0 l0 D; [discriminate|]. exists f. split; auto. cbn [drain] in D. destruct (pit_step g it0) as [[h it']|]; [|discriminate].
    cbn [obind] in D. destruct (Nat.eqb_spec h 0) as [->|N]. - inversion D; eauto.
    - destruct (drain (pit_step g) f it') eqn:D'; [|discriminate]. inversion D; subst. eauto. }
  destruct (Nat.eqb_spec l (idx all w)) as [E|E].
  - apply D1 in Hp as (f1 & _ & _ & it1 & S1 & Hp). apply D1 in Hp as (f2 & _ & it2 & S2).
    cbn [cut_loop]. rewrite S1. cbn [obind]. cbn [Nat.eqb]. rewrite Hov. cbn [obind]. rewrite Z.eqb_refl.
    rewrite S2. cbn [obind Nat.eqb]. assert (po w = me).
    { assert (v = w) by (eapply idx_inj; eauto; congruence). subst w. rewrite <- E in How. congruence. }
    rewrite H0, Z.eqb_refl. reflexivity.
  - apply D1 in Hp as (f1 & _ & _ & it1 & S1 & Hp). apply D1 in Hp as (f2 & _ & _ & it2 & S2 & Hp). apply D1 in Hp as (f3 & _ & it3 & S3).
    cbn [cut_loop]. rewrite S1. cbn [obind]. cbn [Nat.eqb]. rewrite Hov. cbn [obind]. rewrite Z.eqb_refl.
    rewrite S2. cbn [obind Nat.eqb]. rewrite How. cbn [obind].
    destruct (Z.eqb_spec me (-1)); [congruence|]. rewrite (Z.eqb_sym (po w)). destruct (Z.eqb_spec me (po w)); auto.
    rewrite S3. reflexivity.
Qed.
End Tr.
End P.

Section W.
Variables (me : Z) (hg : bool) (verts vws : list Z) (tys : list type_input) (g : graph).
Hypothesis HC : constructed me hg verts vws tys g.
Notation all := (verts ++ ghosts_of verts tys).
Notation HR := (proj1 (constructed_rep _ _ _ _ _ _ HC)).

Lemma w_edge t es ws i e : nth_error tys t = Some (es, ws) -> nth_error es i = Some e ->
  eweight g (getEdge (ntypes g) i t) = match ws with [] => Some 1%Z | _ => nth_error ws i end.
Proof.
  intros Ht Hi. assert (L : i < length es) by (apply nth_error_Some; congruence).
  assert (Hw : ws = [] \/ length ws = length es).
  { destruct HC as ((_ & _ & _ & H) & _). apply (H es ws). eapply nth_error_In; eauto. }
  assert (E : nth_error (eff_wgts ws (length es)) i = match ws with [] => Some 1%Z | _ => nth_error ws i end).
  { destruct ws; cbn [eff_wgts]; auto. now apply nth_error_repeat_lt. }
  destruct (nth_error (eff_wgts ws (length es)) i) as [w|] eqn:Ew.
  - rewrite <- E. eapply eweight_ok; [exact HR|apply nth_eff, Ht|exact Ew].
  - exfalso. destruct Hw as [->|Hw]; [discriminate|]. apply nth_error_None in Ew. unfold eff_wgts in Ew. destruct ws; simpl in *; try lia.
Qed.

Lemma w_vertex l v : nth_error verts l = Some v ->
  vweight g (getVertex l) = Some (match nth_error vws l with Some w => w | None => 1%Z end).
Proof.
  intros Hl. assert (L : l < length verts) by (apply nth_error_Some; congruence).
  unfold getVertex. rewrite Nat.add_1_r. eapply vweight_ok; [exact HR|].
  destruct (Nat.lt_ge_cases l (length vws)) as [H|H].
  - rewrite nth_error_app1 by auto. destruct (nth_error vws l) eqn:E; auto. apply nth_error_None in E. lia.
  - rewrite nth_error_app2 by auto. rewrite (proj2 (nth_error_None vws l)) by auto. apply nth_error_repeat_lt. lia.
Qed.

Lemma w_iter_verts fuel : length verts < fuel -> exists hs, all_verts g fuel = Some hs /\ mapM (vgid g) hs = Some verts /\ NoDup hs.
Proof.
  intros Hf. exists (map S (seq 0 (length verts))). split; [apply (all_verts_ok _ _ _ _ _ HR); auto|]. split.
  - clear Hf. assert (G : forall k r, skipn k verts = r -> k <= length verts -> mapM (vgid g) (map S (seq k (length r))) = Some r).
    { intros k r; revert k; induction r as [|v r IH]; intros k H Hk; [reflexivity|]. cbn [length seq map mapM].
      assert (Hv : nth_error verts k = Some v).
      { rewrite <- (firstn_skipn k verts), H, nth_error_app2 by (rewrite firstn_length; lia). rewrite firstn_length.
        replace (k - Nat.min k (length verts)) with 0 by lia. reflexivity. }
      assert (k < length verts) by (apply nth_error_Some; congruence).
      rewrite (vgid_ok _ _ _ _ _ HR) by (rewrite app_length; lia). rewrite nth_error_app1, Hv by auto. cbn [obind].
      rewrite IH; auto. clear - H. revert verts H. induction k as [|k IHk]; intros [|a l] H; cbn in *; try discriminate; [inversion H; auto|auto]. }
    apply (G 0 verts); auto. lia.
  - apply FinFun.Injective_map_NoDup; [intros x y; congruence|apply seq_NoDup].
Qed.

Lemma w_iter_ghosts fuel : length (ghosts_of verts tys) < fuel ->
  exists hs, all_ghosts g fuel = Some hs /\ mapM (vgid g) hs = Some (ghosts_of verts tys) /\ NoDup hs.
Proof.
  intros Hf. exists (map S (seq (length verts) (length (ghosts_of verts tys)))). split; [apply (all_ghosts_ok _ _ _ _ _ HR); auto|]. split.
  - clear Hf. assert (G : forall r k, (forall j v, nth_error r j = Some v -> nth_error all (k + j) = Some v) -> mapM (vgid g) (map S (seq k (length r))) = Some r).
    { induction r as [|v r IH]; intros k H; [reflexivity|]. cbn [length seq map mapM].
      pose proof (H 0 v eq_refl) as Hv. rewrite Nat.add_0_r in Hv.
      rewrite (vgid_ok _ _ _ _ _ HR) by (apply nth_error_Some; congruence). rewrite Hv. cbn [obind].
      rewrite IH; auto. intros j w Hj. replace (S k + j) with (k + S j) by lia. now apply H. }
    apply G. intros j v Hj. rewrite nth_error_app2 by lia. now replace (length verts + j - length verts) with j by lia.
  - apply FinFun.Injective_map_NoDup; [intros x y; congruence|apply seq_NoDup].
Qed.

Lemma w_iter_edges t es ws fuel : nth_error tys t = Some (es, ws) -> length es < fuel ->
  all_edges g t fuel = Some (map (fun i => getEdge (ntypes g) i t) (seq 0 (length es))).
Proof. intros Ht. apply (all_edges_ok _ _ _ _ _ HR t es (eff_wgts ws (length es))). apply (nth_eff _ _ _ _ Ht). Qed.

Lemma w_adj_hyper t es ws l v fuel : hg = true -> nth_error tys t = Some (es, ws) -> nth_error verts l = Some v ->
  let nb := flat_map (fun i => match nth_error es i with Some e => snd e | None => [] end) (incident v es) in
  length nb < fuel -> exists hs, adjacent g (getVertex l) t fuel = Some hs /\ mapM (vgid g) hs = Some nb.
Proof.
  intros Hg Ht Hl nb Hf. pose proof (vals_incident _ _ _ _ _ _ HC t es ws l v Hg Ht Hl) as E.
  destruct (nth_verts verts tys l v Hl) as [Ha L]. unfold getVertex. rewrite Nat.add_1_r.
  exists (map (fun v => S (idx all v)) nb). split.
  - pose proof (adjacent_hyper _ _ _ _ _ HR t es _ (nth_eff _ _ _ _ Ht) l fuel) as A. cbv zeta in A. rewrite E in A. apply A; auto.
    rewrite (c_hyper _ _ _ _ _ _ HC); auto.
  - rewrite mapM_some with (h := fun h => match vgid g h with Some v => v | None => 0%Z end).
    + rewrite map_map. f_equal. etransitivity; [|apply map_id]. apply map_ext_in. intros w Hw. rewrite (vgid_idx _ _ _ _ _ HR); auto.
      unfold nb in Hw. apply in_flat_map in Hw as (i & _ & Hw). destruct (nth_error es i) as [[gid ps]|] eqn:Ei; [|destruct Hw].
      eapply (pins_in_all _ _ _ _ _ HR t es); eauto. apply (nth_eff _ _ _ _ Ht).
    + intros h Hh. apply in_map_iff in Hh as (w & <- & Hw). rewrite (vgid_idx _ _ _ _ _ HR); auto.
      unfold nb in Hw. apply in_flat_map in Hw as (i & _ & Hw). destruct (nth_error es i) as [[gid ps]|] eqn:Ei; [|destruct Hw].
      eapply (pins_in_all _ _ _ _ _ HR t es); eauto. apply (nth_eff _ _ _ _ Ht).
Qed.

Lemma w_adj_trad t es ws l v fuel : hg = false -> nth_error tys t = Some (es, ws) -> nth_error verts l = Some v ->
  length (out_dests v es) < fuel ->
  exists hs, adjacent g (getVertex l) t fuel = Some hs /\ mapM (vgid g) hs = Some (out_dests v es).
Proof.
  intros Hg Ht Hl Hf. pose proof (vals_dests _ _ _ _ _ _ HC t es ws l v Hg Ht Hl) as E.
  destruct (nth_verts verts tys l v Hl) as [Ha L]. unfold getVertex. rewrite Nat.add_1_r.
  exists (map S (map (idx all) (out_dests v es))). split.
  - rewrite (adjacent_trad _ _ _ _ _ HR t es (eff_wgts ws (length es)) (nth_eff _ _ _ _ Ht) l fuel); auto.
    + now rewrite E.
    + rewrite (c_hyper _ _ _ _ _ _ HC); auto.
    + unfold cnt_of. rewrite E, map_length. auto.
  - rewrite map_map. rewrite mapM_some with (h := fun h => match vgid g h with Some v => v | None => 0%Z end).
    + rewrite map_map. f_equal. etransitivity; [|apply map_id]. apply map_ext_in. intros w Hw. rewrite (vgid_idx _ _ _ _ _ HR); auto.
      eapply (c_incl _ _ _ _ _ _ HC); eauto. eapply out_dests_in; eauto.
    + intros h Hh. apply in_map_iff in Hh as (w & <- & Hw). rewrite (vgid_idx _ _ _ _ _ HR); auto.
      eapply (c_incl _ _ _ _ _ _ HC); eauto. eapply out_dests_in; eauto.
Qed.
End W.

(** ** distributed counts *)
Record part_input := mkPart { pi_verts : list Z; pi_vws : list Z; pi_tys : list type_input; pi_owns : zmap Z }.

(** [parts] is a consistent distribution over its ranks of the global hypergraph whose type-[t] edges are [H]:
    rank r has the vertices owned by r, exactly the edges with a pin it owns, and right owners for the other pins. *)
Definition consistent (own : Z -> nat) (H : list edge_input) (t : nat) (parts : list part_input) : Prop :=
  (forall e v, In e H -> In v (snd e) -> own v < length parts) /\
  forall r p, nth_error parts r = Some p ->
    valid_input true (pi_verts p) (pi_vws p) (pi_tys p) /\
    (forall e v, In e H -> In v (snd e) -> (In v (pi_verts p) <-> own v = r)) /\
    (forall v, In v (pi_verts p) -> own v = r) /\
    exists es ws, nth_error (pi_tys p) t = Some (es, ws) /\
      Permutation es (filter (fun e => existsb (fun v => Nat.eqb (own v) r) (snd e)) H) /\
      (forall e v, In e es -> In v (snd e) -> own v <> r -> zfind (pi_owns p) v = Some (Z.of_nat (own v))).

Lemma consistent_counts own H t parts gs fuel :
  consistent own H t parts ->
  Forall2 (fun rp g => build_part (Z.of_nat (fst rp)) true (pi_verts (snd rp)) (pi_vws (snd rp)) (pi_tys (snd rp)) (pi_owns (snd rp)) = Some g)
     (combine (seq 0 (length parts)) parts) gs ->
  length H < fuel ->
  global_counts gs t fuel = Some (Z.of_nat (length (filter (fun e => negb (match snd e with [] => true | _ => false end)) H)),
     Z.of_nat (length (concat (map snd H)))).
Proof.
  intros (Hown & Hp) HF Hf. assert (Lg : length gs = length parts).
  { rewrite <- (Forall2_len _ _ _ _ _ HF), combine_length, seq_length. lia. }
  apply (global_counts_ok own H t gs fuel); auto.
  - intros e v He Hv. rewrite Lg. eauto.
  - intros r g Hr. destruct (Forall2_nth_r _ _ _ _ _ _ _ HF Hr) as ([r' p] & Hc & Hb). cbn [fst snd] in Hb.
    assert (r' = r /\ nth_error parts r = Some p) as [-> Hr'].
    { clear - Hc. revert Hc. assert (G : forall l a k x, nth_error (combine (seq a (length l)) l) k = Some (r', x) -> r' = a + k /\ nth_error l k = @Some part_input x).
      { induction l as [|y l IH]; intros a k x E; [destruct k; discriminate|]. destruct k; cbn in E.
        - inversion E; subst. split; auto. - apply IH in E as [-> E]. split; [lia|auto]. }
      intros E. apply G in E as [-> E]. auto. }
    destruct (Hp r p Hr') as (Hv & Hiff & Hloc & es & ws & Ht & Hperm & How).
    destruct (part_rep _ _ _ _ _ _ _ Hv Hb) as (HR & HO & Hh & Hs).
    constructor. exists (pi_verts p), (pi_vws p ++ repeat 1%Z (length (pi_verts p) - length (pi_vws p))), (ghosts_of (pi_verts p) (pi_tys p)),
      (map eff_ty (pi_tys p)), (look (pi_owns p)), es, (eff_wgts ws (length es)).
    repeat (split; [solve [auto using nth_eff]|]).
    intros e v He Hvin Hn. unfold look. rewrite (How e v); auto. intros E.
    apply Hn. apply (Hiff e v); auto. eapply Permutation_in in He; [|exact Hperm]. apply filter_In in He. tauto.
Qed.
