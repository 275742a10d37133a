(** C38: breadth-first search computes distances between edges. *)
From Verif Require Import Base GraphModel GraphSpec CsrProofs ConstructProofs AccessProofs AccessProofs2 GraphTop GraphTop2 GraphProps TagModel QueueModel BfsProofs BfsPush BfsPull SearchView.

(** ** Specification: distances between the edges of a part, two edges being next to each other when they share a local vertex *)
Definition ends_of (es : list edge_input) (i : nat) : list Z := match nth_error es i with Some e => snd e | None => [] end.
Definition touching (verts : list Z) (es : list edge_input) (a b : nat) : Prop := exists v, In v verts /\ In v (ends_of es a) /\ In v (ends_of es b).
(** [hops next seeds n e]: e can be reached from one of the seeds in n steps *)
Inductive hops (next : nat -> nat -> Prop) (seeds : list nat) : nat -> nat -> Prop :=
| hops_seed e : In e seeds -> hops next seeds 0 e
| hops_next n a b : hops next seeds n a -> next a b -> hops next seeds (S n) b.
Definition reachable next seeds e : Prop := exists n, hops next seeds n e.
Definition distance next seeds (d e : nat) : Prop := hops next seeds d e /\ forall n, hops next seeds n e -> d <= n.
(** the input of a search: an array with room for every edge that holds the seeds, and no edge visited *)
Definition fresh_search (ne : nat) (seeds : list nat) (s : inputs) : Prop :=
  length (in_seeds s) = ne /\ in_n s = length seeds /\ (forall i, i < length seeds -> aget (in_seeds s) i = nth_error seeds i) /\
  in_vis s = ainit (repeat (-1)%Z ne).
(** the answer: every reachable edge has its distance, every other edge -1, and the seed array lists the reachable edges once each by distance *)
Definition search_right (ne : nat) (next : nat -> nat -> Prop) (seeds : list nat) (s : inputs) : Prop :=
  (forall e, e < ne -> reachable next seeds e -> exists d, aget (in_vis s) e = Some (Z.of_nat d) /\ distance next seeds d e) /\
  (forall e, e < ne -> ~ reachable next seeds e -> aget (in_vis s) e = Some (-1)%Z) /\
  length (in_vis s) = ne /\
  exists R, in_n s = length R /\ (forall i, i < length R -> aget (in_seeds s) i = nth_error R i) /\ NoDup R /\
    (forall e, In e R <-> reachable next seeds e) /\
    forall i j a b x y, i <= j -> nth_error R i = Some a -> nth_error R j = Some b -> aget (in_vis s) a = Some x -> aget (in_vis s) b = Some y -> (x <= y)%Z.

Lemma aget_nth {A} (a : arr A) i x : aget a i = Some x -> nth_error a i = Some (Some x).
Proof. unfold aget. destruct (nth_error a i) as [[y|]|]; congruence. Qed.
Lemma depth_contract ne nv pl il O : contract ne nv pl il depth_visit (fun _ _ => True) (fun _ _ _ => True) O.
Proof.
  intros L s a b C _ Ia _ Lb _ _. unfold depth_visit. assert (La : a < ne) by (apply C; auto). rewrite (core_get ne L s a C La), (core_get ne L s b C Lb). cbn [obind].
  pose proof (core_in ne L s b C) as IB. destruct (Z.eqb_spec (vz s b) (-1)) as [E|NEQ].
  - assert (NI : ~ In b L) by (intros I; apply IB in I; auto). pose proof C as ((S1 & S2 & _) & (V1 & _)). rewrite aset_some by (rewrite S1, S2; eapply seeds_full; eauto; apply C). rewrite aset_some by lia. cbn [obind].
    eexists _, true. split; [reflexivity|]. split; auto. split; auto. right. split; auto. split; auto.
    assert (Z0 : (0 <= vz s a + 1)%Z). { destruct C as (_ & _ & _ & P & _). pose proof (P a Ia). lia. }
    destruct (core_add ne L s b (vz s a + 1)%Z (mkIn (upd (in_seeds s) (in_n s) (Some b)) (in_n s + 1) (upd (in_vis s) b (Some (vz s a + 1)%Z)) (in_osets s) (in_sets s) (in_par s) (in_size s) (in_lab s)) C NI Lb Z0) as (A & B & D); cbn [in_seeds in_n in_vis]; auto.
    { apply aset_some. rewrite S1, S2. eapply seeds_full; eauto. apply C. } { apply aset_some. lia. }
  - exists s, false. split; [reflexivity|]. split; auto. split; auto. left. split; [apply IB; auto|]. auto.
Qed.

Lemma fresh_ok ne S0 s : fresh_search ne S0 s -> NoDup S0 -> (forall e, In e S0 -> e < ne) -> Seeds ne ([] ++ S0) s /\ Vis ne [] s /\ forall e, vz s e = (-1)%Z.
Proof.
  intros (A & B & C & D) ND HB'. assert (VZ : forall e, vz s e = (-1)%Z).
  { intros e. unfold vz. rewrite D, aget_ainit. destruct (nth_error (repeat (-1)%Z ne) e) eqn:E; auto. apply nth_error_In, repeat_spec in E. auto. }
  split; [|split; auto].
  - cbn [app]. repeat split; auto.
  - unfold Vis. rewrite D. unfold ainit at 1. rewrite map_length, repeat_length. repeat split; auto; [|intros e []]. intros e He. exists (-1)%Z. rewrite aget_ainit. now apply nth_error_repeat_lt.
Qed.
Lemma right_of ne nv pl il next X J S0 R s s' : (forall n e, walk (adj nv pl il) S0 n e <-> hops next S0 n e) -> (forall e, vz s e = (-1)%Z) -> Result ne nv pl il X J 0%Z [] S0 R s s' -> search_right ne next S0 s'.
Proof.
  intros walk_hops VZ [r1 r2 r3 r4 r5 r6 r7 r8]. cbn [app] in *.
  assert (RR : forall e, In e R <-> reachable next S0 e).
  { intros e. split; [intros H; destruct (r4 e H) as (d & _ & W & _); exists d; now apply walk_hops|]. intros (n & H). apply walk_hops in H. eauto. }
  split; [|split; [|split]].
  - intros e Le He. apply RR in He. destruct (r4 e He) as (d & E & W & M). exists d. rewrite (core_get ne R s' e r1 Le), E. split; [now rewrite Z.add_0_l|]. split; [now apply walk_hops|]. intros n H. apply M, walk_hops. auto.
  - intros e Le He. rewrite (core_get ne R s' e r1 Le), r6; [now rewrite VZ|]. intros I. apply He, RR, I.
  - apply r1.
  - exists R. destruct r1 as ((_ & S2 & S3 & S4 & S5) & V). repeat split; auto; try apply RR.
    intros i j a b x y Hij Ha Hb Hx Hy. pose proof (r7 i j a b Hij Ha Hb) as K. unfold vz in K. now rewrite Hx, Hy in K.
Qed.

Section C38.
Variables (me : Z) (verts vws : list Z) (tys : list type_input) (owns : zmap Z) (g : graph) (es : list edge_input) (ws : list Z).
Hypothesis HV : valid_input true verts vws tys.
Hypothesis HB : build_part me true verts vws tys owns = Some g.
Hypothesis Ht : nth_error tys 0 = Some (es, ws).
Notation ne := (length es). Notation nv := (length verts).
Notation vp := (vpins verts tys es). Notation vi := (vil verts es).
Lemma adj_touching a b : adj nv vp vi a b <-> touching verts es a b.
Proof.
  unfold adj, touching. split.
  - intros (v & Lv & Ha & Hb). destruct (nth_error verts v) as [x|] eqn:E; [|apply nth_error_None in E; lia]. exists x. assert (IX : In x verts) by (eapply nth_error_In; eauto). split; auto.
    assert (K : forall c, In v (vp c) -> In x (ends_of es c)).
    { intros c Hc. unfold vpins in Hc. apply in_map_iff in Hc as (y & Ey & Hy). change (ends_of es c) with (pin_ids es c). assert (y = x); [|congruence].
      assert (Iy : In y (verts ++ ghosts_of verts tys)) by (eapply v_in_all; eauto). pose proof (idx_nth _ _ Iy) as K. rewrite Ey in K. rewrite nth_error_app1 in K by auto. congruence. }
    split; [auto|]. apply K. apply (v_sym _ _ _ _ _ _ _ _ HV HB Ht); auto.
  - intros (x & Ix & Ha & Hb). exists (idx (verts ++ ghosts_of verts tys) x). assert (L : idx (verts ++ ghosts_of verts tys) x < nv) by (rewrite idx_app by auto; apply idx_lt; auto). split; auto.
    split; [apply in_map; auto|]. apply (v_sym _ _ _ _ _ _ _ _ HV HB Ht); auto. apply in_map. auto.
Qed.
Lemma walk_hops S0 n e : walk (adj nv vp vi) S0 n e <-> hops (touching verts es) S0 n e.
Proof. split; (induction 1; [constructor; auto|econstructor; eauto; apply adj_touching; auto]). Qed.
End C38.

(** every ghost of the part is owned by another part *)
Definition ghosts_elsewhere (me : Z) (verts : list Z) (tys : list type_input) (owns : zmap Z) : Prop := forall v, In v (ghosts_of verts tys) -> part_of me verts owns v <> me.

(** bfs_push on a hypergraph part, from any nonempty set of seeds, ends and gives the distances. *)
Theorem C38_push : forall me verts vws tys owns g es ws seeds s fuel, valid_input true verts vws tys -> build_part me true verts vws tys owns = Some g -> nth_error tys 0 = Some (es, ws) ->
  ghosts_elsewhere me verts tys owns -> fresh_search (length es) seeds s -> NoDup seeds -> seeds <> [] -> (forall e, In e seeds -> e < length es) -> enough verts es fuel ->
  exists s' d, bfs_push g 0 0 0%Z depth_visit fuel s = Some (s', d) /\ search_right (length es) (touching verts es) seeds s' /\ forall e x, aget (in_vis s') e = Some x -> (x <= d)%Z.
Proof.
  intros me verts vws tys owns g es ws S0 s fuel HV HB Ht HO FS ND NE SB F. destruct (fresh_ok (length es) S0 s FS ND SB) as (A & B & C).
  destruct (bfs_push_ok g (length es) (length verts) fuel (vpins verts tys es) (vil verts es)) with (visit := depth_visit) (X := fun (_ : list nat) (_ : inputs) => True) (J := fun (_ : inputs) (_ _ : nat) => True) (O := @nil nat) (S0 := S0) (depth := 0%Z) (s0 := s) (s := s)
    as (R & s' & d & E & RES & MX); auto.
  - intros e Le. eapply v_pins; eauto.
  - intros v Lv. eapply v_local; eauto.
  - intros e v Le Hv Gv. eapply (v_ghost me); eauto.
  - intros v Lv. eapply v_edges; eauto.
  - intros e Le. eapply v_lid; eauto.
  - intros v b Lv Hb. eapply v_il; eauto.
  - eapply v_nlv; eauto.
  - apply depth_contract.
  - eapply v_verts; eauto.
  - unfold enough in F. lia.
  - lia.
  - exists s', d. split; [exact E|]. split; [eapply right_of; eauto; intros; eapply walk_hops; eauto|]. intros e x Hx. assert (Le : e < length es) by (destruct RES as [((_ & L & _) & V & _) _ _ _ _ _ _ _]; apply aget_lt in Hx; cbn in *; lia).
    destruct (in_dec Nat.eq_dec e R) as [I|I].
    + specialize (MX e I). unfold vz in MX. now rewrite Hx in MX.
    + pose proof (r_old _ _ _ _ _ _ _ _ _ _ _ _ RES e I) as K. unfold vz at 1 in K. rewrite Hx, C in K.
      destruct (r_pre _ _ _ _ _ _ _ _ _ _ _ _ RES) as (N & ER). destruct S0 as [|y S0]; [congruence|]. assert (IY : In y R) by (rewrite ER; left; auto). specialize (MX y IY).
      destruct (r_dist _ _ _ _ _ _ _ _ _ _ _ _ RES y IY) as (k & Ek & _). lia.
Qed.
Print Assumptions C38_push.

(** bfs_pull gives the same. *)
Theorem C38_pull : forall me verts vws tys owns g es ws seeds s fuel, valid_input true verts vws tys -> build_part me true verts vws tys owns = Some g -> nth_error tys 0 = Some (es, ws) ->
  fresh_search (length es) seeds s -> NoDup seeds -> seeds <> [] -> (forall e, In e seeds -> e < length es) -> length es <= fuel ->
  exists s' d, bfs_pull g 0 0 0%Z depth_visit fuel s = Some (s', d) /\ search_right (length es) (touching verts es) seeds s' /\ forall e x, aget (in_vis s') e = Some x -> (x < d)%Z.
Proof.
  intros me verts vws tys owns g es ws S0 s fuel HV HB Ht FS ND NE SB F. destruct (fresh_ok (length es) S0 s FS ND SB) as (A & B & C).
  destruct (v_row _ _ _ _ _ _ _ _ HV HB Ht) as (ed & ED & _ & ROW).
  destruct (bfs_pull_ok ed (length es) (length verts) (vpins verts tys es) (vil verts es) ROW) with (visit := depth_visit) (X := fun (_ : list nat) (_ : inputs) => True) (J := fun (_ : inputs) (_ _ : nat) => True) (O := @nil nat) (S0 := S0) (depth := 0%Z) (s0 := s) (s := s) (g := g) (fuel := fuel)
    as (R & s' & d & E & RES & MX); auto.
  - intros v b Lv Hb. eapply v_il; eauto.
  - intros v a Lv La. eapply v_sym; eauto.
  - apply depth_contract.
  - intros e [].
  - eapply v_nlv; eauto.
  - lia.
  - exists s', d. split; [exact E|]. split; [eapply right_of; eauto; intros; eapply walk_hops; eauto|]. intros e x Hx. assert (Le : e < length es) by (destruct RES as [((_ & L & _) & V & _) _ _ _ _ _ _ _]; apply aget_lt in Hx; cbn in *; lia).
    destruct (in_dec Nat.eq_dec e R) as [I|I].
    + specialize (MX e I). unfold vz in MX. now rewrite Hx in MX.
    + pose proof (r_old _ _ _ _ _ _ _ _ _ _ _ _ RES e I) as K. unfold vz at 1 in K. rewrite Hx, C in K.
      destruct (r_pre _ _ _ _ _ _ _ _ _ _ _ _ RES) as (N & ER). destruct S0 as [|y S0]; [congruence|]. assert (IY : In y R) by (rewrite ER; left; auto). specialize (MX y IY).
      destruct (r_dist _ _ _ _ _ _ _ _ _ _ _ _ RES y IY) as (k & Ek & _). lia.
Qed.
Print Assumptions C38_pull.

(** The two searches leave the same depth array. *)
Theorem C38_same : forall ne next seeds s1 s2, search_right ne next seeds s1 -> search_right ne next seeds s2 ->
  in_vis s1 = in_vis s2.
Proof.
  intros ne next S0 s1 s2 (A1 & B1 & L1 & R1 & RR) (A2 & B2 & L2 & _). destruct RR as (_ & _ & _ & IN & _).
  apply nth_error_ext. intros e. destruct (Nat.lt_ge_cases e ne) as [L|G]; [|rewrite !(proj2 (nth_error_None _ _)) by lia; auto].
  assert (K : exists z, aget (in_vis s1) e = Some z /\ aget (in_vis s2) e = Some z).
  { destruct (in_dec Nat.eq_dec e R1) as [I|I].
    - apply IN in I. destruct (A1 e L I) as (d1 & E1 & H1 & M1). destruct (A2 e L I) as (d2 & E2 & H2 & M2). exists (Z.of_nat d1). split; auto. rewrite E2. do 2 f_equal. pose proof (M1 _ H2). pose proof (M2 _ H1). lia.
    - exists (-1)%Z. split; [apply B1|apply B2]; auto; intros H; apply I, IN, H. }
  destruct K as (z & K1 & K2). apply aget_nth in K1. apply aget_nth in K2. congruence.
Qed.
Print Assumptions C38_same.

Lemma filter_length_le {A} (f : A -> bool) l : length (filter f l) <= length l.
Proof. induction l as [|a l IH]; cbn; [lia|]. destruct (f a); cbn; lia. Qed.
(** ** Traditional graphs: from an edge the search goes to the edges that leave one of its local ends *)
Definition follows (verts : list Z) (ends : list (Z * Z)) (a b : nat) : Prop :=
  exists u w u' w', nth_error ends a = Some (u, w) /\ nth_error ends b = Some (u', w') /\ In u' verts /\ (u' = u \/ u' = w).
(** bfs_push on a traditional part: [ends] are the end points the API reports for the edges. *)
Theorem C38_push_traditional : forall me verts vws tys owns g es ws ends seeds s fuel, valid_input false verts vws tys -> build_part me false verts vws tys owns = Some g -> nth_error tys 0 = Some (es, ws) ->
  local_sources verts es -> mapM (edge_ends g 0) (seq 0 (length es)) = Some ends ->
  ghosts_elsewhere me verts tys owns -> fresh_search (length es) seeds s -> NoDup seeds -> seeds <> [] -> (forall e, In e seeds -> e < length es) -> 2 + length verts + length es < fuel ->
  exists s' d, bfs_push g 0 0 0%Z depth_visit fuel s = Some (s', d) /\ search_right (length es) (follows verts ends) seeds s'.
Proof.
  intros me verts vws tys owns g es ws ends S0 s fuel HV HB Ht LS HE HO FS ND NE SB F. destruct (fresh_ok (length es) S0 s FS ND SB) as (A & B & C).
  pose proof (p_constructed _ _ _ _ _ _ _ HV HB) as HC. pose proof (proj1 (part_rep _ _ _ _ _ _ _ HV HB)) as HR. assert (HH : hyper g = false) by apply (part_rep _ _ _ _ _ _ _ HV HB).
  set (all := verts ++ ghosts_of verts tys). set (oc := occ_of g verts (ghosts_of verts tys) es).
  assert (LT : off oc (length verts) = length es). { unfold oc. rewrite (off_total _ _ _ _ _ HC es), (tot_eq _ _ _ _ _ HC 0 es ws Ht LS), map_length. auto. }
  assert (CE : forall l, cnt_of l oc <= length es). { intros l. unfold cnt_of, vals_of. rewrite map_length. etransitivity; [apply filter_length_le|]. unfold oc. rewrite (tot_eq _ _ _ _ _ HC 0 es ws Ht LS), map_length. auto. }
  assert (LL : length ends = length es) by (apply mapM_length in HE; rewrite seq_length in HE; auto).
  (* the stored position of an edge determines its ends *)
  assert (POS : forall p, p < length es -> exists l m x u w, l < length verts /\ p = off oc l + m /\ nth_error (vals_of l oc) m = Some x /\ nth_error ends p = Some (u, w) /\ nth_error verts l = Some u /\ In u all /\ In w all /\ idx all u = l /\ idx all w = x).
  { intros p Lp. destruct (row_of verts tys g es p) as (l & m & Ll & Lm & E); [fold oc; lia|]. fold oc in Lm, E. destruct (nth_error (vals_of l oc) m) as [x|] eqn:Ex; [|apply nth_error_None in Ex; unfold cnt_of in Lm; lia].
    pose proof (edge_ends_row _ _ _ _ _ HC 0 es ws Ht l m x Ll Ex) as EE. fold oc all in EE. rewrite <- E in EE.
    destruct (mapM_nth _ _ _ _ _ p p HE) as (y & Hy & Ey); [rewrite nth_error_seq by auto; reflexivity|]. rewrite EE in Ey. destruct (nth_error all l) as [u|] eqn:Eu; [|discriminate]. destruct (nth_error all x) as [w|] eqn:Ew; [|discriminate]. cbn [obind] in Ey. inversion Ey; subst y.
    exists l, m, x, u, w. repeat split; auto; try (eapply nth_error_In; eauto; fail); try (apply nth_idx; auto; apply (rp_nd _ _ _ _ _ HR)). unfold all in Eu. rewrite nth_error_app1 in Eu by auto. auto. }
  set (pins := fun p => match nth_error ends p with Some (u, w) => if Z.eqb u w then [idx all u] else [idx all u; idx all w] | None => [] end).
  set (il := fun l => seq (off oc l) (cnt_of l oc)).
  assert (ILB : forall l p, l < length verts -> In p (il l) -> p < length es).
  { intros l p Ll Hp. apply in_seq in Hp. assert (off oc (S l) <= off oc (length verts)) by (apply off_mono_le; lia). rewrite off_S in H. lia. }
  assert (ILU : forall l p u w, l < length verts -> nth_error ends p = Some (u, w) -> (In p (il l) <-> idx all u = l)).
  { intros l p u w Ll Hp. assert (Lp : p < length es) by (rewrite <- LL; apply nth_error_Some; congruence). destruct (POS p Lp) as (l' & m & x & u' & w' & Ll' & Ep & Ex & Ee & _ & _ & _ & Iu & _). assert (u' = u) by congruence. subst u'. rewrite Iu.
    assert (Lm : m < cnt_of l' oc) by (unfold cnt_of; apply nth_error_Some; congruence). unfold il. rewrite in_seq. split; [|intros ->; lia]. intros H.
    destruct (Nat.lt_trichotomy l l') as [L|[L|L]]; auto.
    - assert (off oc (S l) <= off oc l') by (apply off_mono_le; lia). rewrite off_S in H0. lia.
    - assert (off oc (S l') <= off oc l) by (apply off_mono_le; lia). rewrite off_S in H0. lia. }
  destruct (gtype_ok _ _ _ _ _ HR 0 _ _ (nth_eff _ _ _ _ Ht)) as (ed & ED & HED & NT).
  destruct (bfs_push_ok g (length es) (length verts) fuel pins il) with (visit := depth_visit) (X := fun (_ : list nat) (_ : inputs) => True) (J := fun (_ : inputs) (_ _ : nat) => True) (O := @nil nat) (S0 := S0) (depth := 0%Z) (s0 := s) (s := s)
    as (R & s' & d & E & RES & MX); auto.
  - intros e Le. destruct (POS e Le) as (l & m & x & u & w & Ll & Ep & Ex & Ee & _ & Iu & Iw & El & Ew). unfold pins. rewrite Ee. rewrite Ep at 1. unfold oc at 1. rewrite (edge_pins_trad g verts _ _ _ 0 es (eff_wgts ws (length es)) l m x fuel HR HH (nth_eff _ _ _ _ Ht) Ll Ex) by lia.
    destruct (Z.eqb_spec u w) as [<-|N].
    + replace x with l by congruence. rewrite Nat.eqb_refl, El. reflexivity.
    + destruct (Nat.eqb_spec l x) as [K|K]; [exfalso; apply N; apply (idx_inj all); auto; congruence|]. rewrite El, Ew. reflexivity.
  - intros v Lv. unfold owner. cbn [vlid]. rewrite (rp_nlv _ _ _ _ _ HR). destruct (Nat.leb_spec (length verts + ngv g) v); [lia|]. destruct (Nat.ltb_spec v (length verts)); [auto|lia].
  - intros e v Le Hv Gv. destruct (POS e Le) as (l & m & x & u & w & Ll & Ep & Ex & Ee & _ & Iu & Iw & El & Ew). unfold pins in Hv. rewrite Ee in Hv.
    assert (K : exists y, In y all /\ v = idx all y) by (destruct (Z.eqb u w); [destruct Hv as [<-|[]]; eauto|destruct Hv as [<-|[<-|[]]]; eauto]). destruct K as (y & Iy & ->).
    pose proof (p_owner _ _ _ _ _ _ _ HV HB (idx all y) y (idx_nth _ _ Iy)) as P. unfold getVertex in P. rewrite Nat.add_1_r in P. exists (part_of me verts owns y). split; auto.
    rewrite (p_self _ _ _ _ _ _ _ HV HB). apply HO. unfold all in Iy. apply in_app_iff in Iy as [Iy|Iy]; auto. exfalso. unfold all in Gv. rewrite idx_app in Gv by auto. pose proof (idx_lt _ _ Iy). lia.
  - intros v Lv. unfold il. rewrite (vertex_edges_trad _ _ _ _ _ HR 0 es (eff_wgts ws (length es)) v fuel HH (nth_eff _ _ _ _ Ht) Lv); [reflexivity|]. fold oc. specialize (CE v). lia.
  - intros e Le. unfold elid. rewrite edec_getEdge by auto. reflexivity.
  - apply (rp_nlv _ _ _ _ _ HR).
  - apply depth_contract.
  - eapply (all_verts_ok _ _ _ _ _ HR). lia.
  - lia.
  - lia.
  - exists s', d. split; [exact E|]. eapply right_of; eauto. clear E RES MX.
    assert (AF : forall a b, adj (length verts) pins il a b <-> follows verts ends a b).
    { intros a b. split.
      - intros (v & Lv & Ha & Hb). unfold pins in Ha. destruct (nth_error ends a) as [[u w]|] eqn:Ea; [|destruct Ha].
        pose proof (ILB v b Lv Hb) as Lb. destruct (POS b Lb) as (l & m & x & u' & w' & Ll & _ & _ & Ee & Nu & Iu & _ & El & _). exists u, w, u', w'. split; auto. split; auto. split; [eapply nth_error_In; eauto|].
        apply (ILU v b u' w' Lv Ee) in Hb. assert (La : a < length es) by (rewrite <- LL; apply nth_error_Some; congruence). destruct (POS a La) as (la & ma & xa & ua & wa & _ & _ & _ & Eea & _ & Iua & Iwa & _). assert (ua = u /\ wa = w) as [-> ->] by (split; congruence).
        assert (K : v = idx all u \/ v = idx all w) by (destruct (Z.eqb u w); [destruct Ha as [<-|[]]|destruct Ha as [<-|[<-|[]]]]; auto). destruct K as [K|K]; [left|right]; apply (idx_inj all); auto; congruence.
      - intros (u & w & u' & w' & Ea & Eb & Iu & K). exists (idx all u'). assert (Lu : idx all u' < length verts) by (unfold all; rewrite idx_app by auto; apply idx_lt; auto). split; auto. split.
        + unfold pins. rewrite Ea. destruct (Z.eqb_spec u w) as [<-|N]; destruct K as [->| ->]; cbn; auto.
        + apply (ILU _ b u' w' Lu Eb). auto. }
    intros n e. split; (induction 1; [constructor; auto|econstructor; eauto; apply AF; auto]).
Qed.
Print Assumptions C38_push_traditional.

(** On a traditional graph bfs_pull reads the list of neighbouring vertices as if it were a list of edges.
    On the cycle 10 -> 11 -> 12 -> 10 it does not find the edges that bfs_push finds at distance 1 and 2. *)
Definition cycle_tys : list type_input := [([(1, [10; 11]); (2, [11; 12]); (3, [12; 10])], [])]%Z.
Definition cycle_in : inputs := mkIn [Some 0; None; None] 1 (ainit (repeat (-1)%Z 3)) 0 0 [] [] [].
Theorem C38_pull_traditional_refuted : exists g s1 d1 s2 d2, build_part 0 false [10; 11; 12]%Z [] cycle_tys [] = Some g /\ fresh_search 3 [0] cycle_in /\
  bfs_push g 0 0 0%Z depth_visit 50 cycle_in = Some (s1, d1) /\ in_vis s1 = ainit [0; 1; 2]%Z /\
  bfs_pull g 0 0 0%Z depth_visit 50 cycle_in = Some (s2, d2) /\ in_vis s2 = ainit [0; -1; -1]%Z.
Proof.
  destruct (build_part 0 false [10; 11; 12]%Z [] cycle_tys []) as [g|] eqn:E; [|vm_compute in E; discriminate]. exists g. vm_compute in E. injection E as <-.
  match goal with |- context [bfs_push ?g ?a ?b ?c ?d ?e ?f] => destruct (bfs_push g a b c d e f) as [[s1 d1]|] eqn:E1; [|vm_compute in E1; discriminate]; destruct (bfs_pull g a b c d e f) as [[s2 d2]|] eqn:E2; [|vm_compute in E2; discriminate] end.
  exists s1, d1, s2, d2. split; [reflexivity|]. split; [|vm_compute in E1, E2; injection E1 as <- <-; injection E2 as <- <-; auto].
  repeat split; auto. intros i Hi. destruct i as [|i]; [reflexivity|cbn in Hi; lia].
Qed.
Print Assumptions C38_pull_traditional_refuted.

(** A chain of four hyperedges, the last two joined only through a ghost, meets the hypotheses. *)
Definition chain_verts : list Z := [10; 11; 12; 13]%Z.
Definition chain_tys : list type_input := [([(1, [10; 20; 11]); (2, [11; 12]); (3, [12; 21]); (4, [13; 21])], [])]%Z.
Definition chain_owns : zmap Z := [(20, 0); (21, 2)]%Z.
Example chain_valid : valid_input true chain_verts [] chain_tys /\ ghosts_elsewhere 1 chain_verts chain_tys chain_owns /\ enough chain_verts (fst (nth 0 chain_tys ([], []))) 50.
Proof.
  split; [|split].
  - split; [repeat constructor; cbn; intuition congruence|]. split; [cbn; lia|]. split; [cbn; lia|]. intros es ws [H|[]]; inversion H; subst; (split; [auto|discriminate]).
  - intros v Hv. change (ghosts_of chain_verts chain_tys) with [20; 21]%Z in Hv. destruct Hv as [<-|[<-|[]]]; vm_compute; discriminate.
  - vm_compute. lia.
Qed.
Definition chain_in : inputs := mkIn [Some 0; None; None; None] 1 (ainit (repeat (-1)%Z 4)) 0 0 [] [] [].
Example chain_run : (g <- build_part 1 true chain_verts [] chain_tys chain_owns ;;
   '(s1, d1) <- bfs_push g 0 0 0%Z depth_visit 50 chain_in ;; '(s2, d2) <- bfs_pull g 0 0 0%Z depth_visit 50 chain_in ;; Some (in_vis s1, d1, in_vis s2, d2))
   = Some (ainit [0; 1; 2; -1]%Z, 2%Z, ainit [0; 1; 2; -1]%Z, 3%Z).
Proof. vm_compute. reflexivity. Qed.
