(** C43 for traditional graphs: the selection of cavities on one part. *)
From Verif Require Import Base GraphModel GraphSpec CsrProofs ConstructProofs GraphTop GraphTop2 AccessProofs AccessProofs2 CountProofs Comm TagModel TagProps MetricsModel MetricsProofs MetricsProps QueueModel QueueProps MigrateModel MigrateSpec MigrateProofs5 MigrateTop MigrateProps SidesProofs SidesProps TradSpec TradProps GraphProps GraphIOProps SidesTradProps SelectorModel SelectorProofs SelectorTop SelectorTop2 SelectorProps SelectProofs.
From Coq Require Import Lqa.
Local Open Scope nat_scope.

(** ** Vocabulary.  [csr_order verts es] are the arcs of a type in the order in which they are stored (GraphIOProps), [stored_arcs] the same with their weights (SidesTradProps):
    the i-th is the handle [getEdge (ntypes g) i t].  [first_call cs l] (SelectProofs) is the part that the first of the calls cs planning vertex l sends it to. *)
Definition arcs_of (verts : list Z) (tys : list type_input) (t : nat) : list (arc * Z) := match nth_error tys t with Some ty => stored_arcs verts ty | None => [] end.
Definition weight_at (verts vws : list Z) (l : nat) : Z := nth l (vws ++ repeat 1%Z (length verts - length vws)) 0%Z.
(** what one vertex can add: its weight, or the weight of the arcs that leave it *)
Definition tvertex_load (val : Z -> Q) (verts vws : list Z) (tys : list type_input) (dim : option nat) (l : nat) (v : Z) : Q :=
  match dim with
  | None => val (weight_at verts vws l)
  | Some t => qsum (map (fun a => if Z.eqb (fst (fst a)) v then val (snd a) else 0%Q) (arcs_of verts tys t))
  end.
(** what part d gets when the vertices go where they were first planned: their weight, or the weight of their arcs that do not end on d already *)
Definition tmoved (val : Z -> Q) (me : Z) (verts vws : list Z) (tys : list type_input) (owns : zmap Z) (cs : list plan_op) (d : Z) (dim : option nat) : Q :=
  match dim with
  | None => qsum (map (fun l => match first_call cs l with Some k => if Z.eqb k d then val (weight_at verts vws l) else 0%Q | None => 0%Q end) (seq 0 (length verts)))
  | Some t => qsum (map (fun a => match first_call cs (idx verts (fst (fst a))) with Some k => if Z.eqb k d && negb (Z.eqb (part_of me verts owns (snd (fst a))) d) then val (snd a) else 0%Q | None => 0%Q end) (arcs_of verts tys t))
  end.
(** a call made by select: vertex l goes to a target part and is an end of a queued arc *)
Definition tchosen_call (verts : list Z) (tys : list type_input) (nt : nat) (queue : list nat) (targets : cont Q) (o : plan_op) : Prop :=
  exists l d v i a, o = Ins l d /\ chas targets d = true /\ nth_error verts l = Some v /\ nth_error (arcs_of verts tys 0) i = Some a /\ (v = fst (fst a) \/ v = snd (fst a)) /\ In (getEdge nt i 0) queue.

(** *** The second pass, with connectivity type con and threshold minCon.  [planned cs l] (MigrateSpec) is the last destination planned for vertex l. *)
Section TSecond.
Variables (me : Z) (verts : list Z) (tys : list type_input) (owns : zmap Z) (con minCon : nat).
Definition ttied (v w : Z) : Prop := w <> v /\ match nth_error tys con with Some ty => minCon <= count_occ Z.eq_dec (out_dests v (fst ty)) w | None => False end.
Definition tcalled (cs : list plan_op) (v : Z) : Prop := exists l, nth_error verts l = Some v /\ planned cs l <> None.
(** vertex u is on part d, or leaves for it *)
Definition tgoes (cs : list plan_op) (u d : Z) : Prop := (exists l, nth_error verts l = Some u /\ planned cs l = Some d) \/ (~ In u verts /\ d = part_of me verts owns u).
(** the arcs of type 0 leaving v that part d shares *)
Definition tshares (cs : list plan_op) (v d : Z) (N : list nat) : Prop :=
  NoDup N /\ forall i, In i N <-> exists a, nth_error (arcs_of verts tys 0) i = Some a /\ fst (fst a) = v /\ (tgoes cs v d \/ tgoes cs (snd (fst a)) d).
Definition tclosest (cs : list plan_op) (v d : Z) : Prop := exists N, tshares cs v d N /\ forall d' N', tshares cs v d' N' -> length N' <= length N.
(** every vertex that v reaches by minCon arcs is planned, unless v is *)
Definition tloose (cs : list plan_op) (v : Z) : Prop := forall w, ttied v w -> tcalled cs v \/ tcalled cs w.
(** the calls of the pass over the sources of the waiting arcs: a loose source goes to the part closest to it *)
Inductive tsecond_pass : list plan_op -> list Z -> list plan_op -> Prop :=
| ts_done : forall cs, tsecond_pass cs [] []
| ts_send : forall cs v xs d l m, tloose cs v -> tclosest cs v d -> d <> me -> nth_error verts l = Some v -> tsecond_pass (cs ++ [Ins l d]) xs m -> tsecond_pass cs (v :: xs) (Ins l d :: m)
| ts_stay : forall cs v xs m, ~ tloose cs v -> tsecond_pass cs xs m -> tsecond_pass cs (v :: xs) m.
End TSecond.

Lemma first_plan_keys A : map fst (first_plan A) = flat_map snd A.
Proof. unfold first_plan. induction A as [|a A IH]; [reflexivity|]. cbn [flat_map]. rewrite map_app, IH. f_equal. rewrite map_map. cbn. apply map_id. Qed.

Section C43T.
Variables (val : Z -> Q) (me : Z) (verts vws : list Z) (tys : list type_input) (owns : zmap Z) (g : graph) (gw : option (arr Z)) (fuel : nat).
Variables (ord : list nat -> list nat) (pord : list (Z * list nat) -> list (Z * list nat)).
Variables (targets : cont Q) (limit : Q) (dim : option nat) (M : Q) (p0 : mplan) (q : sarr) (es : list nat).
Hypothesis HV : valid_input false verts vws tys.
Hypothesis HB : build_part me false verts vws tys owns = Some g.
Hypothesis HS : forall ty, In ty tys -> local_sources verts (fst ty).
Hypothesis HG : forall v, In v (ghosts_of verts tys) -> part_of me verts owns v <> me.
Hypothesis HW : (0 <= val 1)%Q /\ (forall w, In w vws -> (0 <= val w)%Q) /\ forall ty w, In ty tys -> In w (eweights ty) -> (0 <= val w)%Q.
Hypothesis HF : length verts < fuel /\ forall ty, In ty tys -> length (fst ty) + 2 < fuel.
Hypothesis H_ord : forall c, Permutation (ord c) c.
Hypothesis HT : 0 < length tys.
Hypothesis Hdim : match dim with Some t => t < length tys | None => True end.
Hypothesis H_tgt : forall d, chas targets d = true -> d <> me /\ d <> (-1)%Z.
Hypothesis H_keys : NoDup (map fst (c_d targets)).
Hypothesis H_p0 : plan_new g fuel = Some p0.
Hypothesis H_q : waiting q es.
Hypothesis H_cap : capacity q = length (sa_cur q) /\ length es <= capacity q.
Hypothesis H_es : forall e, In e es -> exists i a, nth_error (arcs_of verts tys 0) i = Some a /\ e = getEdge (ntypes g) i 0.

Lemma a_HC : constructed me false verts vws tys g. Proof. exact (p_constructed _ _ _ _ _ _ _ HV HB). Qed.
Notation HR := (proj1 (part_rep _ _ _ _ _ _ _ HV HB)).
Notation HO := (proj1 (proj2 (part_rep _ _ _ _ _ _ _ HV HB))).
Notation all := (verts ++ ghosts_of verts tys).
Notation po := (part_of me verts owns).
Notation tot es0 := (AccessProofs.occ_of g verts (ghosts_of verts tys) es0).
Definition a_tok (t : nat) : Prop := t < length tys.
Definition a_loc (h : nat) : Prop := exists l, h = getVertex l /\ l < length verts.
Definition a_il (t h : nat) : list nat := match h, nth_error tys t with S l, Some ty => map (fun i => getEdge (ntypes g) i t) (seq (off (tot (fst ty)) l) (cnt_of l (tot (fst ty)))) | _, _ => [] end.
Definition a_eok (e : nat) : Prop := exists i a, nth_error (arcs_of verts tys 0) i = Some a /\ e = getEdge (ntypes g) i 0.
Definition a_pn (e : nat) : list nat := match edge_pins g e fuel with Some l => l | None => [] end.
Definition a_ow (v : nat) : Z := match owner g v with Some o => o | None => 0%Z end.
Definition a_res (e : nat) (d : Z) : bool := match isResidentOn g e d with Some b => b | None => false end.
Definition a_ew (e : nat) : Q := match eweight g e with Some x => val x | None => 0%Q end.
Definition a_vw (h : nat) : Q := match weight_of val g gw h with Some x => x | None => 0%Q end.
Lemma a_nlv : nlv g = length verts. Proof. apply (rp_nlv _ _ _ _ _ HR). Qed.
Lemma a_self : self g = me. Proof. exact (p_self _ _ _ _ _ _ _ HV HB). Qed.
Lemma a_hyper : hyper g = false. Proof. exact (p_hyper _ _ _ _ _ _ _ HV HB). Qed.
Lemma a_ndall : NoDup all. Proof. exact (rp_nd _ _ _ _ _ HR). Qed.
Lemma a_nd : NoDup verts. Proof. apply HV. Qed.
Lemma a_loc_iff h : a_loc h <-> exists l, l < nlv g /\ h = getVertex l.
Proof. unfold a_loc. rewrite a_nlv. split; intros (l & A & B); exists l; auto. Qed.
Lemma a_ty t : a_tok t -> exists es0 ws, nth_error tys t = Some (es0, ws) /\ In (es0, ws) tys. 
Proof. intros H. destruct (nth_error tys t) as [(es0, ws)|] eqn:E; [exists es0, ws; split; auto; eapply nth_error_In; eauto|apply nth_error_None in E; unfold a_tok in H; lia]. Qed.
Lemma a_cnt t es0 ws l v : nth_error tys t = Some (es0, ws) -> nth_error verts l = Some v -> cnt_of l (tot es0) = length (out_dests v es0).
Proof. intros Ht Hl. unfold cnt_of. rewrite (vals_dests _ _ _ _ _ _ a_HC t es0 ws l v eq_refl Ht Hl). apply map_length. Qed.
(** the stored arc at position i *)
Lemma a_arc t es0 ws i : nth_error tys t = Some (es0, ws) -> i < length es0 ->
  exists l v m w x, nth_error verts l = Some v /\ nth_error (out_dests v es0) m = Some w /\ i = off (tot es0) l + m /\ nth_error (arcs_of verts tys t) i = Some ((v, w), x) /\ eweight g (getEdge (ntypes g) i t) = Some x /\ In x (eweights (es0, ws)).
Proof.
  intros Ht Li. pose proof (nth_error_In _ _ Ht) as It. destruct (row_at _ _ _ _ _ a_HC t es0 ws Ht (HS _ It) i Li) as (l & v & m & w & Hl & Hm & Ei & Hc). pose proof (eweights_length _ _ _ _ _ _ HV It) as LW.
  destruct (nth_error (eweights (es0, ws)) i) as [x|] eqn:Ew; [|apply nth_error_None in Ew; lia]. exists l, v, m, w, x. split; auto. split; auto. split; auto. split; [unfold arcs_of; rewrite Ht; unfold stored_arcs; cbn [fst]; apply combine_nth2; auto|]. split; [|eapply nth_error_In; eauto].
  destruct (nth_error es0 i) as [e|] eqn:Ee; [|apply nth_error_None in Ee; lia]. rewrite (w_edge _ _ _ _ _ _ a_HC t es0 ws i _ Ht Ee). unfold eweights in Ew. cbn [fst snd] in Ew. destruct ws; [apply nth_error_In, repeat_spec in Ew; now subst|exact Ew].
Qed.
Lemma a_arc_lt t i a : nth_error (arcs_of verts tys t) i = Some a -> exists es0 ws, nth_error tys t = Some (es0, ws) /\ i < length es0.
Proof.
  unfold arcs_of. destruct (nth_error tys t) as [(es0, ws)|] eqn:Ht; [|destruct i; discriminate]. intros H. exists es0, ws. split; auto. assert (L : i < length (stored_arcs verts (es0, ws))) by (apply nth_error_Some; congruence). unfold stored_arcs in L. rewrite combine_length in L. cbn [fst] in L.
  pose proof (stored_len _ _ _ _ _ a_HC t es0 ws Ht (HS _ (nth_error_In _ _ Ht))). lia.
Qed.
Lemma getEdge_inj' t i j : a_tok t -> getEdge (ntypes g) i t = getEdge (ntypes g) j t -> i = j.
Proof. intros H E. pose proof (c_ntypes _ _ _ _ _ _ a_HC) as CN. unfold a_tok in H. unfold getEdge in E. assert (X : ntypes g * i = ntypes g * j) by lia. apply Nat.mul_cancel_l in X; lia. Qed.
Lemma a_vinj k l v : nth_error verts k = Some v -> nth_error verts l = Some v -> k = l.
Proof. intros A B. apply (proj1 (NoDup_nth_error verts) a_nd); [apply nth_error_Some; congruence|congruence]. Qed.
Lemma a_il_in t es0 ws l v e : nth_error tys t = Some (es0, ws) -> nth_error verts l = Some v -> (In e (a_il t (getVertex l)) <-> exists i a, e = getEdge (ntypes g) i t /\ nth_error (arcs_of verts tys t) i = Some a /\ fst (fst a) = v).
Proof.
  intros Ht Hl. unfold a_il, getVertex. rewrite Nat.add_1_r, Ht. cbn [fst]. rewrite in_map_iff. assert (Ll : l < length verts) by (apply nth_error_Some; congruence).
  assert (SU : forall i, off (tot es0) l <= i < off (tot es0) l + cnt_of l (tot es0) -> i < length es0).
  { intros i Hi. pose proof (stored_total _ _ _ _ _ a_HC t es0 ws Ht (HS _ (nth_error_In _ _ Ht))) as ST. pose proof (off_mono_le (tot es0) (S l) (length verts) Ll) as OM. rewrite off_S in OM. lia. }
  split.
  - intros (i & <- & Hi). apply in_seq in Hi. destruct (a_arc t es0 ws i Ht (SU i Hi)) as (l' & v' & m & w & x & Hl' & Hm & Ei & Ha & _). exists i, ((v', w), x). split; auto. split; auto. cbn. assert (m < cnt_of l' (tot es0)) by (rewrite (a_cnt t es0 ws l' v' Ht Hl'); apply nth_error_Some; congruence).
    assert (l = l') by (apply (off_unique (tot es0) i); rewrite off_S; lia). subst l'. congruence.
  - intros (i & a & -> & Ha & Ea). exists i. split; auto. destruct (a_arc_lt t i a Ha) as (es1 & ws1 & Ht1 & Li). assert (es1 = es0) by congruence. subst es1. destruct (a_arc t es0 ws i Ht Li) as (l' & v' & m & w & x & Hl' & Hm & Ei & Ha' & _). assert (a = ((v', w), x)) by congruence. subst a. cbn in Ea. subst v'. assert (l' = l) by (eapply a_vinj; eauto). subst l'.
    apply in_seq. assert (m < cnt_of l (tot es0)) by (rewrite (a_cnt t es0 ws l v Ht Hl); apply nth_error_Some; congruence). lia.
Qed.
Lemma a_il_nodup t es0 ws l : nth_error tys t = Some (es0, ws) -> NoDup (a_il t (getVertex l)).
Proof. intros Ht. unfold a_il, getVertex. rewrite Nat.add_1_r, Ht. apply FinFun.Injective_map_NoDup; [|apply seq_NoDup]. intros i j. apply getEdge_inj'. unfold a_tok. apply nth_error_Some. congruence. Qed.
Lemma a_his h t : a_loc h -> a_tok t -> vertex_edges g h t fuel = Some (a_il t h).
Proof.
  intros (l & -> & Hl) Ht. destruct (a_ty t Ht) as (es0 & ws & Et & It). destruct (nth_error verts l) as [v|] eqn:Ev; [|apply nth_error_None in Ev; lia]. unfold a_il, getVertex. rewrite Nat.add_1_r, Et. cbn [fst]. apply (vertex_edges_trad _ _ _ _ _ HR t es0 (eff_wgts ws (length es0)) l fuel a_hyper (nth_eff _ _ _ _ Et) Hl).
  pose proof (stored_total _ _ _ _ _ a_HC t es0 ws Et (HS _ It)) as ST. pose proof (off_mono_le (tot es0) (S l) (length verts) Hl) as OM. rewrite off_S in OM. pose proof (proj2 HF _ It) as LF. cbn [fst] in LF. lia.
Qed.
(** the two ends *)
Lemma a_pins t es0 ws i l v m w f : nth_error tys t = Some (es0, ws) -> nth_error verts l = Some v -> nth_error (out_dests v es0) m = Some w -> i = off (tot es0) l + m -> 2 < f ->
  edge_pins g (getEdge (ntypes g) i t) f = Some (if l =? idx all w then [S l] else [S l; S (idx all w)]) /\ In w all /\ idx all v = l.
Proof.
  intros Ht Hl Hm -> Lf. destruct (tr_row me false verts vws tys owns g HV HB eq_refl t es0 ws Ht l v m w Hl Hm) as (Hx & L & Hin & El & Hinv). split; [|auto].
  exact (edge_pins_trad _ _ _ _ _ t es0 (eff_wgts ws (length es0)) l m (idx all w) f HR a_hyper (nth_eff _ _ _ _ Ht) L Hx Lf).
Qed.
Lemma a_owner v : In v all -> owner g (S (idx all v)) = Some (po v).
Proof. intros Hv. rewrite (owner_ok _ _ _ _ _ _ HR HO v Hv), (owner_spec_part _ _ _ _ _ _ _ HV HB). reflexivity. Qed.
Lemma a_mine v : In v all -> (po v = me <-> In v verts).
Proof. intros Hv. split; [|intros I; unfold part_of; destruct (in_dec Z.eq_dec v verts); tauto]. intros E. apply in_app_iff in Hv as [Hv|Hv]; auto. exfalso. now apply (HG v Hv). Qed.
Lemma a_resident t es0 ws i l v m w d : nth_error tys t = Some (es0, ws) -> nth_error verts l = Some v -> nth_error (out_dests v es0) m = Some w -> i = off (tot es0) l + m ->
  isResidentOn g (getEdge (ntypes g) i t) d = Some (Z.eqb me d || Z.eqb (po w) d).
Proof.
  intros Ht Hl Hm Ei. destruct (a_pins t es0 ws i l v m w 3 Ht Hl Hm Ei ltac:(lia)) as (Hp & Iw & Iv). unfold edge_pins in Hp. unfold isResidentOn. rewrite (edegree_trad me verts vws tys owns g HV HB). destruct (pins_begin g (getEdge (ntypes g) i t)) as [it|]; [|discriminate]. cbn [obind] in *.
  assert (Lv : l < length verts) by (apply nth_error_Some; congruence). assert (Hov : owner g (S l) = Some me). { rewrite <- Iv at 1. rewrite a_owner by (apply in_app_iff; left; eapply nth_error_In; eauto). f_equal. apply a_mine; [apply in_app_iff; left|]; eapply nth_error_In; eauto. }
  pose proof (a_owner w Iw) as How.
  assert (D1 : forall f it l, drain (pit_step g) f it = Some l -> exists f', f = S f' /\ match l with [] => exists it', pit_step g it = Some (0, it')
      | h :: r => h <> 0 /\ exists it', pit_step g it = Some (h, it') /\ drain (pit_step g) f' it' = Some r end).
  { intros [|f] it0 l0 D; [discriminate|]. exists f. split; auto. cbn [drain] in D. destruct (pit_step g it0) as [[h it']|]; [|discriminate].
    cbn [obind] in D. destruct (Nat.eqb_spec h 0) as [->|N]; [inversion D; eauto|]. destruct (drain (pit_step g) f it') eqn:D'; [|discriminate]. inversion D; subst. eauto. }
  destruct (Nat.eqb_spec l (idx all w)) as [E|E].
  - apply D1 in Hp as (f1 & _ & _ & it1 & S1 & Hp). apply D1 in Hp as (f2 & _ & it2 & S2). cbn [resident_loop]. rewrite S1. cbn [obind]. rewrite Hov. cbn [obind]. assert (po w = me). { rewrite <- E in How. congruence. }
    destruct (Z.eqb_spec me d) as [->|N]; [reflexivity|]. rewrite S2. cbn [obind]. unfold owner at 1. cbn [vlid]. rewrite (p_self _ _ _ _ _ _ _ HV HB). cbn [obind]. rewrite H. destruct (Z.eqb me d); reflexivity.
  - apply D1 in Hp as (f1 & _ & _ & it1 & S1 & Hp). apply D1 in Hp as (f2 & _ & _ & it2 & S2 & Hp). cbn [resident_loop]. rewrite S1. cbn [obind]. rewrite Hov. cbn [obind]. destruct (Z.eqb_spec me d) as [->|N]; [reflexivity|]. rewrite S2. cbn [obind]. rewrite How. cbn [obind orb]. destruct (Z.eqb (po w) d); reflexivity.
Qed.
Lemma a_edge h t e : a_loc h -> a_tok t -> In e (a_il t h) -> exists es0 ws i l v m w x, nth_error tys t = Some (es0, ws) /\ e = getEdge (ntypes g) i t /\ nth_error verts l = Some v /\ h = getVertex l /\ nth_error (out_dests v es0) m = Some w /\ i = off (tot es0) l + m /\ nth_error (arcs_of verts tys t) i = Some ((v, w), x) /\ eweight g e = Some x /\ In x (eweights (es0, ws)).
Proof.
  intros (l & -> & Hl) Ht He. destruct (a_ty t Ht) as (es0 & ws & Et & It). destruct (nth_error verts l) as [v|] eqn:Ev; [|apply nth_error_None in Ev; lia]. apply (a_il_in t es0 ws l v e Et Ev) in He as (i & a & -> & Ha & Ea). destruct (a_arc_lt t i a Ha) as (es1 & ws1 & Ht1 & Li). assert (es1 = es0) by congruence. subst es1. destruct (a_arc t es0 ws i Et Li) as (l' & v' & m & w & x & Hl' & Hm & Ei & Ha' & Ew & Ix).
  assert (a = ((v', w), x)) by congruence. subst a. cbn in Ea. subst v'. assert (l' = l) by (eapply a_vinj; eauto). subst l'. exists es0, ws, i, l, v, m, w, x. auto 12.
Qed.
Lemma a_hres h t e d : a_loc h -> a_tok t -> In e (a_il t h) -> isResidentOn g e d = Some (a_res e d).
Proof. intros Hh Ht He. destruct (a_edge h t e Hh Ht He) as (es0 & ws & i & l & v & m & w & x & Et & -> & Hl & _ & Hm & Ei & _). unfold a_res. rewrite (a_resident t es0 ws i l v m w d Et Hl Hm Ei). reflexivity. Qed.
Lemma a_hew h t e : a_loc h -> a_tok t -> In e (a_il t h) -> exists x, eweight g e = Some x /\ val x = a_ew e.
Proof. intros Hh Ht He. destruct (a_edge h t e Hh Ht He) as (es0 & ws & i & l & v & m & w & x & _ & _ & _ & _ & _ & _ & _ & Ew & _). exists x. unfold a_ew. rewrite Ew. auto. Qed.
Lemma a_weight l : l < length verts -> weight_of val g gw (getVertex l) = Some (val (weight_at verts vws l)).
Proof.
  intros L. destruct (nth_error verts l) as [v|] eqn:Ev; [|apply nth_error_None in Ev; lia]. unfold weight_of. unfold getVertex at 1. rewrite Nat.add_1_r. cbn [vlid obind]. rewrite a_nlv. destruct (Nat.ltb_spec l (length verts)); [|lia].
  rewrite (w_vertex _ _ _ _ _ _ a_HC l _ Ev). cbn [obind]. do 2 f_equal. unfold weight_at. destruct (nth_error vws l) as [w|] eqn:Ew.
  - rewrite app_nth1 by (apply nth_error_Some; congruence). symmetry. now apply nth_error_nth.
  - apply nth_error_None in Ew. rewrite app_nth2 by lia. symmetry. apply nth_error_nth. apply nth_error_repeat. lia.
Qed.
Lemma a_hvw h : a_loc h -> weight_of val g gw h = Some (a_vw h). Proof. intros (l & -> & L). unfold a_vw. now rewrite (a_weight l L). Qed.
Lemma a_vpos h : a_loc h -> (0 <= a_vw h)%Q.
Proof.
  intros (l & -> & L). unfold a_vw. rewrite (a_weight l L). unfold weight_at. destruct HW as (W1 & W2 & _). set (ls := vws ++ repeat 1%Z (length verts - length vws)). assert (Ll : l < length ls) by (unfold ls; rewrite app_length, repeat_length; lia).
  pose proof (nth_In ls 0%Z Ll) as I. unfold ls at 2 in I. apply in_app_iff in I as [I|I]; [auto|]. apply repeat_spec in I. now rewrite I.
Qed.
Lemma a_epos h t e : a_loc h -> a_tok t -> In e (a_il t h) -> (0 <= a_ew e)%Q.
Proof. intros Hh Ht He. destruct (a_edge h t e Hh Ht He) as (es0 & ws & i & l & v & m & w & x & Et & _ & _ & _ & _ & _ & _ & Ew & Ix). unfold a_ew. rewrite Ew. apply (proj2 (proj2 HW) (es0, ws)); auto. eapply nth_error_In; eauto. Qed.
Lemma a_heok h e : a_loc h -> In e (a_il 0 h) -> a_eok e.
Proof. intros Hh He. destruct (a_edge h 0 e Hh HT He) as (es0 & ws & i & l & v & m & w & x & _ & -> & _ & _ & _ & _ & Ha & _). exists i, ((v, w), x). auto. Qed.
(** the vertices of an arc of type 0 *)
Lemma a_ends e : a_eok e -> exists es0 ws i l v m w x, nth_error tys 0 = Some (es0, ws) /\ e = getEdge (ntypes g) i 0 /\ nth_error verts l = Some v /\ nth_error (out_dests v es0) m = Some w /\ i = off (tot es0) l + m /\ nth_error (arcs_of verts tys 0) i = Some ((v, w), x) /\
  edge_pins g e fuel = Some (a_pn e) /\ a_pn e = (if l =? idx all w then [S l] else [S l; S (idx all w)]) /\ In w all /\ idx all v = l.
Proof.
  intros (i & a & Ha & ->). destruct (a_arc_lt 0 i a Ha) as (es0 & ws & Et & Li). destruct (a_arc 0 es0 ws i Et Li) as (l & v & m & w & x & Hl & Hm & Ei & Ha' & _). assert (LF : 2 < fuel) by (pose proof (proj2 HF _ (nth_error_In _ _ Et)); lia). destruct (a_pins 0 es0 ws i l v m w fuel Et Hl Hm Ei LF) as (Ep & Iw & Iv).
  exists es0, ws, i, l, v, m, w, x. unfold a_pn. rewrite Ep. auto 15.
Qed.
Lemma a_hpn e : a_eok e -> edge_pins g e fuel = Some (a_pn e).
Proof. intros He. destruct (a_ends e He) as (es0 & ws & i & l & v & m & w & x & _ & _ & _ & _ & _ & _ & E & _). exact E. Qed.
Lemma a_inpn e h : a_eok e -> In h (a_pn e) -> exists u i a, e = getEdge (ntypes g) i 0 /\ nth_error (arcs_of verts tys 0) i = Some a /\ (u = fst (fst a) \/ u = snd (fst a)) /\ In u all /\ h = S (idx all u).
Proof.
  intros He Hh. destruct (a_ends e He) as (es0 & ws & i & l & v & m & w & x & Et & -> & Hl & Hm & Ei & Ha & _ & Ep & Iw & Iv). rewrite Ep in Hh. assert (Ia : In v all) by (apply in_app_iff; left; eapply nth_error_In; eauto).
  assert (X : h = S l \/ h = S (idx all w)) by (destruct (l =? idx all w); cbn in Hh; intuition). destruct X as [->| ->]; [exists v, i, ((v, w), x); rewrite Iv; auto 6|exists w, i, ((v, w), x); auto 6].
Qed.
Lemma a_how e h : a_eok e -> In h (a_pn e) -> owner g h = Some (a_ow h).
Proof. intros He Hh. destruct (a_inpn e h He Hh) as (u & i & a & _ & _ & _ & Iu & ->). unfold a_ow. now rewrite (a_owner u Iu). Qed.
Lemma a_local h u : In u all -> h = S (idx all u) -> a_ow h = self g -> exists l, h = getVertex l /\ nth_error verts l = Some u.
Proof.
  intros Iu -> Ho. unfold a_ow in Ho. rewrite (a_owner u Iu), a_self in Ho. apply a_mine in Ho; auto. exists (idx verts u). split; [rewrite idx_app by auto; unfold getVertex; lia|now apply idx_nth].
Qed.
Lemma a_hmine e h : a_eok e -> In h (a_pn e) -> a_ow h = self g -> a_loc h.
Proof. intros He Hh Ho. destruct (a_inpn e h He Hh) as (u & i & a & _ & _ & _ & Iu & Eh). destruct (a_local h u Iu Eh Ho) as (l & -> & Hl). exists l. split; auto. apply nth_error_Some. congruence. Qed.
Lemma a_cavity e h : a_eok e -> In h (cavity_of g a_pn a_ow e) -> exists l v i a, h = getVertex l /\ nth_error verts l = Some v /\ e = getEdge (ntypes g) i 0 /\ nth_error (arcs_of verts tys 0) i = Some a /\ (v = fst (fst a) \/ v = snd (fst a)).
Proof. intros He Hh. apply cavity_in in Hh as (Hh & Ho). destruct (a_inpn e h He Hh) as (u & i & a & A1 & A2 & A3 & Iu & Eh). destruct (a_local h u Iu Eh Ho) as (l & -> & Hl). exists l, u, i, a. auto. Qed.
Lemma a_small e : a_eok e -> length (cavity_of g a_pn a_ow e) < 100.
Proof.
  intros He. destruct (a_ends e He) as (es0 & ws & i & l & v & m & w & x & _ & _ & _ & _ & _ & _ & _ & Ep & _). assert (L : length (a_pn e) <= 2) by (rewrite Ep; destruct (l =? idx all w); cbn; lia).
  assert (length (cavity_of g a_pn a_ow e) <= length (a_pn e)); [|lia]. apply NoDup_incl_length; [apply addall_nodup; constructor|]. intros h Hh. apply cavity_in in Hh. tauto.
Qed.
Lemma a_plan : PInv g p0 [].
Proof. destruct (plan_run _ _ _ _ _ g [] fuel a_HC) as (q0 & q1 & F1 & F2 & F3); [apply HF|intros o []|]. cbn in F2. assert (q0 = p0) by congruence. assert (q1 = p0) by congruence. subst. exact F3. Qed.
Lemma arcs_seq t es0 ws (f : arc * Z -> Q) (k : nat -> Q) : nth_error tys t = Some (es0, ws) -> (forall i a, nth_error (arcs_of verts tys t) i = Some a -> f a = k i) -> qsum (map f (arcs_of verts tys t)) = qsum (map k (seq 0 (length (arcs_of verts tys t)))).
Proof.
  intros _ H. f_equal. revert H. generalize (arcs_of verts tys t). intros l. assert (G : forall l a, (forall i x, nth_error l i = Some x -> f x = k (a + i)) -> map f l = map k (seq a (length l))).
  { clear. induction l as [|x l IH]; intros a H; [reflexivity|]. cbn [map length seq]. f_equal; [rewrite (H 0 x eq_refl); f_equal; lia|]. apply IH. intros i y Hi. rewrite (H (S i) y Hi). f_equal. lia. }
  intros H. apply G. exact H.
Qed.
Lemma filter_sum (k : nat -> Q) (b : nat -> bool) l : (qsum (map (fun i => if b i then k i else 0) l) == qsum (map k (filter b l)))%Q.
Proof. induction l as [|x l IH]; [reflexivity|]. cbn [map qsum filter]. destruct (b x); cbn [map qsum]; rewrite IH; ring. Qed.
Hypothesis H_M : (0 <= M)%Q /\ forall l v, nth_error verts l = Some v -> (tvertex_load val verts vws tys dim l v <= M)%Q.
Lemma a_load h : a_loc h -> (load1 a_il a_ew a_vw dim h <= M)%Q.
Proof.
  intros (l & -> & Hl). destruct (nth_error verts l) as [v|] eqn:Ev; [|apply nth_error_None in Ev; lia]. eapply Qle_trans; [|apply (proj2 H_M l v Ev)]. unfold load1, tvertex_load. destruct dim as [t|].
  - destruct (a_ty t Hdim) as (es0 & ws & Et & It).
    rewrite (arcs_seq t es0 ws _ (fun i => if match nth_error (arcs_of verts tys t) i with Some a => Z.eqb (fst (fst a)) v | None => false end then a_ew (getEdge (ntypes g) i t) else 0%Q) Et).
    + rewrite filter_sum, <- (map_map (fun i => getEdge (ntypes g) i t) a_ew). apply (wsum_incl a_ew).
      * now apply (a_il_nodup t es0 ws).
      * intros e He. apply (a_il_in t es0 ws l v e Et Ev) in He as (i & a & -> & Ha & Ea). apply in_map_iff. exists i. split; auto. apply filter_In. split; [apply in_seq; assert (i < length (arcs_of verts tys t)) by (apply nth_error_Some; congruence); lia|]. rewrite Ha, Ea. apply Z.eqb_refl.
      * intros e He. apply in_map_iff in He as (i & <- & Hi). apply filter_In in Hi as (Hi & Hb). destruct (nth_error (arcs_of verts tys t) i) as [a|] eqn:Ha; [|discriminate]. apply Z.eqb_eq in Hb. apply (a_epos (getVertex l) t); [exists l; auto|exact Hdim|]. apply (a_il_in t es0 ws l v _ Et Ev). exists i, a. auto.
    + intros i a Ha. rewrite Ha. destruct (a_arc_lt t i a Ha) as (es1 & ws1 & Ht1 & Li). destruct (a_arc t es1 ws1 i Ht1 Li) as (l' & v' & m & w & x & _ & _ & _ & Ha' & Ew & _). assert (a = ((v', w), x)) by congruence. subst a. unfold a_ew. rewrite Ew. reflexivity.
  - unfold a_vw. rewrite (a_weight l Hl). apply Qle_refl.
Qed.
(** what part d gets is part of what the selection counts *)
Lemma a_brings cs K d : d <> me -> NoDup (map fst K) -> (forall h k, In (h, k) K -> a_loc h) -> (forall l k, first_call cs l = Some k -> In (getVertex l, k) K) ->
  (tmoved val me verts vws tys owns cs d dim <= true_load a_il a_res a_ew a_vw K d dim)%Q.
Proof.
  intros Nd ND HL HK. unfold tmoved. destruct dim as [t|]; cbn [true_load].
  - destruct (a_ty t Hdim) as (es0 & ws & Et & It).
    rewrite (arcs_seq t es0 ws _ (fun i => if match nth_error (arcs_of verts tys t) i with Some a => match first_call cs (idx verts (fst (fst a))) with Some k => Z.eqb k d && negb (Z.eqb (po (snd (fst a))) d) | None => false end | None => false end then a_ew (getEdge (ntypes g) i t) else 0%Q) Et).
    + rewrite filter_sum, <- (map_map (fun i => getEdge (ntypes g) i t) a_ew). apply (wsum_incl a_ew).
      * apply FinFun.Injective_map_NoDup; [intros i j; now apply getEdge_inj'|apply NoDup_filter, seq_NoDup].
      * intros e He. apply in_map_iff in He as (i & <- & Hi). apply filter_In in Hi as (_ & Hb). destruct (nth_error (arcs_of verts tys t) i) as [a|] eqn:Ha; [|discriminate]. destruct (a_arc_lt t i a Ha) as (es1 & ws1 & Ht1 & Li). destruct (a_arc t es1 ws1 i Ht1 Li) as (l & v & m & w & x & Hl & Hm & Ei & Ha' & Ew & _). assert (a = ((v, w), x)) by congruence. subst a. cbn [fst snd] in Hb.
        assert (El : idx verts v = l) by (apply nth_idx; [apply a_nd|auto]). rewrite El in Hb. destruct (first_call cs l) as [k|] eqn:Fk; [|discriminate]. apply andb_true_iff in Hb as (B1 & B2). apply Z.eqb_eq in B1. subst k. apply eset_in. exists (getVertex l). split; [now apply HK|]. split.
        -- apply (a_il_in t es1 ws1 l v _ Ht1 Hl). exists i, ((v, w), x). auto.
        -- unfold a_res. rewrite (a_resident t es1 ws1 i l v m w d Ht1 Hl Hm Ei). destruct (Z.eqb_spec me d); [congruence|]. cbn [orb]. now apply negb_true_iff.
      * intros e He. apply eset_in in He as (h & A & B & _). apply (a_epos h t); auto. apply (HL _ _ A).
    + intros i a Ha. rewrite Ha. destruct (a_arc_lt t i a Ha) as (es1 & ws1 & Ht1 & Li). destruct (a_arc t es1 ws1 i Ht1 Li) as (l' & v' & m & w & x & _ & _ & _ & Ha' & Ew & _). assert (a = ((v', w), x)) by congruence. subst a. unfold a_ew. rewrite Ew. destruct (first_call cs _) as [k|]; reflexivity.
  - set (b := fun l => match first_call cs l with Some k => Z.eqb k d | None => false end). rewrite (map_ext_in _ (fun l => if b l then a_vw (getVertex l) else 0%Q)).
    + rewrite filter_sum, <- (map_map getVertex a_vw). unfold vload. apply (wsum_incl a_vw).
      * apply FinFun.Injective_map_NoDup; [intros i j H; unfold getVertex in H; lia|apply NoDup_filter, seq_NoDup].
      * intros h Hh. apply in_map_iff in Hh as (l & <- & Hb). apply filter_In in Hb as (_ & Hb). unfold b in Hb. destruct (first_call cs l) as [k|] eqn:Fk; [|discriminate]. apply Z.eqb_eq in Hb. subst k. unfold sent_to. apply in_map_iff. exists (getVertex l, d). split; auto. apply filter_In. split; [now apply HK|apply Z.eqb_refl].
      * intros h Hh. unfold sent_to in Hh. apply in_map_iff in Hh as ((h', k) & <- & Hk). apply filter_In in Hk as (Hk & _). apply a_vpos. apply (HL _ _ Hk).
    + intros l Hl. apply in_seq in Hl. unfold b, a_vw. rewrite (a_weight l) by lia. destruct (first_call cs l) as [k|]; [|reflexivity]. reflexivity.
Qed.

Theorem C43_select_traditional : exists s0 st cs, new_selector g fuel q p0 = Some s0 /\ select_sizes val ord pord g gw fuel targets limit dim s0 = Some st /\
  made_plan fuel g cs (s_plan st) /\ (forall o, In o cs -> tchosen_call verts tys (ntypes g) es targets o) /\ NoDup (pl_sending (s_plan st)) /\
  (forall d, d <> me -> (forall l, first_call cs l <> Some d) \/ (tmoved val me verts vws tys owns cs d dim <= cget 0%Q targets d + 11 * M)%Q) /\
  ((forall l, first_call cs l = None) \/ (qsum (map (fun x => tmoved val me verts vws tys owns cs (fst x) dim) (c_d targets)) <= c_total targets + 11 * M)%Q).
Proof.
  assert (HTG : forall d, chas targets d = true -> d <> (-1)%Z) by (intros d Hd; now apply H_tgt).
  assert (HDM : match dim with Some t => a_tok t | None => True end) by exact Hdim.
  assert (HBB : forall d vs, NoDup vs -> length vs <= 11 -> (forall v, In v vs -> a_loc v) -> (0 <= gain a_il a_res a_ew a_vw dim d vs <= 11 * M)%Q).
  { intros d vs _ L HL. apply (gain_bound a_il a_res a_ew a_vw a_loc a_tok dim HDM a_epos a_vpos d vs M HL); auto; [intros v Hv; apply a_load; auto|apply H_M]. }
  destruct (selection_ok val g gw fuel ord pord a_il a_pn a_ow a_res a_ew a_vw a_loc a_tok a_eok a_his a_hres a_hew a_hvw a_loc_iff HT a_heok a_hpn a_how a_hmine H_ord targets limit dim (11 * M)%Q p0 es HTG HDM H_es
    (ex_intro _ [] a_plan) (proj1 (proj2 a_plan)) HBB q H_q (proj2 H_cap) ltac:(rewrite <- (proj1 H_cap); apply H_cap) (fun e He => a_small e (H_es e He))) as (s0 & st & A & cs & lq & E0 & E1 & (_ & HL & _) & _).
  destruct HL as (HP & HR' & HG' & HS' & HN & HA & HWt & HTo & HT1 & HT2 & HF1 & HF2). exists s0, st, cs. split; auto. split; auto. split; [exists p0; split; auto|]. split.
  { intros o Ho. destruct (HG' o Ho) as (e & h & d & -> & He & Hv & Ht). destruct (a_cavity e h (H_es e He) Hv) as (l & v & i & a & -> & Hl & -> & Ha & Ev). exists (lid_of (getVertex l)), d, v, i, a. unfold lid_of. replace (getVertex l - 1) with l by (unfold getVertex; lia). auto 8. }
  split; auto.
  assert (LA : forall a h, In a A -> In h (snd a) -> a_loc h). { intros a h Ha Hv. destruct (HA a Ha) as (_ & _ & H). destruct (H h Hv) as (e & He & Hc). destruct (a_cavity e h (H_es e He) Hc) as (l & v & i & y & -> & Hl & _). exists l. split; auto. apply nth_error_Some. congruence. }
  set (K := first_plan A).
  assert (IK : forall h k, In (h, k) K <-> exists a, In a A /\ In h (snd a) /\ fst a = k). { intros h k. unfold K, first_plan. rewrite in_flat_map. split; [intros (a & Ha & Hh); apply in_map_iff in Hh as (u & Eu & Hu); inversion Eu; subst; eauto|intros (a & Ha & Hh & <-); exists a; split; auto; apply in_map_iff; eauto]. }
  assert (KF : map fst K = pl_sending (s_plan st)). { rewrite <- HS'. apply first_plan_keys. }
  assert (FK : forall l k, first_call cs l = Some k -> In (getVertex l, k) K).
  { intros l k F. assert (I : In (getVertex l) (pl_sending (s_plan st))) by (apply HF2; congruence). rewrite <- HS' in I. apply in_flat_map in I as (a & Ha & Hv). apply IK. exists a. split; auto. split; auto. specialize (HF1 a (getVertex l) Ha Hv). unfold lid_of in HF1. replace (getVertex l - 1) with l in HF1 by (unfold getVertex; lia). congruence. }
  assert (BR : forall d, d <> me -> (tmoved val me verts vws tys owns cs d dim <= added_to a_il a_res a_ew a_vw dim A d)%Q).
  { intros d Nd. eapply Qle_trans; [|apply (load_added g a_il a_pn a_ow a_res a_ew a_vw a_loc a_tok a_eok a_hmine targets dim es HDM H_es a_epos A d HA)]. apply a_brings; auto; [fold K; rewrite KF; auto|]. intros h k I. apply IK in I as (a & Ha & Hh & _). eapply LA; eauto. }
  split.
  - intros d Nd. destruct (HT2 d) as [EN|LE]; [left|right; eapply Qle_trans; [now apply BR|exact LE]]. intros l F. apply FK, IK in F as (a & Ha & _ & Ea). assert (I : In a (filter (fun a => Z.eqb (fst a) d) A)) by (apply filter_In; split; auto; now apply Z.eqb_eq). rewrite EN in I. destruct I.
  - destruct HT1 as [EN|LE]; [left|right].
    + intros l. destruct (first_call cs l) as [k|] eqn:F; auto. apply FK, IK in F as (a & Ha & _). rewrite EN in Ha. destruct Ha.
    + eapply Qle_trans; [|exact LE]. rewrite (added_split a_il a_res a_ew a_vw dim A (map fst (c_d targets)) H_keys).
      * rewrite map_map. apply qsum_le_map. intros x Hx. apply BR. apply H_tgt. unfold chas. destruct (zfind (c_d targets) (fst x)) eqn:Z0; auto. exfalso. assert (I : In (fst x) (map fst (c_d targets))) by now apply in_map. apply zfind_key in I. congruence.
      * intros a Ha. destruct (HA a Ha) as (Ct & _). unfold chas in Ct. apply zfind_key. intros X. rewrite X in Ct. discriminate.
Qed.

(** *** the second pass *)
Variables (con minCon : nat).
Hypothesis Hcon : con < length tys.
Hypothesis H_min : 2 <= minCon.
Hypothesis H_nd : NoDup es.
Hypothesis H_pord : forall m, Permutation (pord m) m.
Hypothesis H_cut : forall i a, nth_error (arcs_of verts tys 0) i = Some a -> In (getEdge (ntypes g) i 0) es -> ~ In (snd (fst a)) verts.
Hypothesis H_ow1 : forall v, In v (ghosts_of verts tys) -> part_of me verts owns v <> (-1)%Z.
Hypothesis H_me : me <> (-1)%Z.
Definition a_aj (h : nat) : list nat := match adjacent g h con fuel with Some l => l | None => [] end.
Notation tie := (ttied tys con minCon).
Lemma a_vall k l v : nth_error verts k = Some v -> nth_error all l = Some v -> k = l.
Proof. intros A B. assert (L : k < length verts) by (apply nth_error_Some; congruence). assert (A' : nth_error all k = Some v) by (rewrite nth_error_app1; auto). apply (proj1 (NoDup_nth_error all) a_ndall); [apply nth_error_Some; congruence|congruence]. Qed.
Lemma a_adj l v : nth_error verts l = Some v -> exists nb, adjacent g (getVertex l) con fuel = Some (map (fun w => S (idx all w)) nb) /\ (forall w, In w nb -> In w all) /\ forall w, w <> v -> (tie v w <-> minCon <= count_occ Z.eq_dec nb w).
Proof.
  intros Hl. destruct (a_ty con Hcon) as (es0 & ws & Et & It). exists (out_dests v es0). assert (L : l < length verts) by (apply nth_error_Some; congruence). split.
  - unfold getVertex. rewrite Nat.add_1_r. rewrite (adjacent_trad _ _ _ _ _ HR con es0 (eff_wgts ws (length es0)) (nth_eff _ _ _ _ Et) l fuel a_hyper L).
    + rewrite (vals_dests _ _ _ _ _ _ a_HC con es0 ws l v eq_refl Et Hl), map_map. reflexivity.
    + pose proof (stored_total _ _ _ _ _ a_HC con es0 ws Et (HS _ It)) as ST. pose proof (off_mono_le (tot es0) (S l) (length verts) L) as OM. rewrite off_S in OM. pose proof (proj2 HF _ It) as LF. cbn [fst] in LF. lia.
  - split; [intros w Hw; eapply (c_incl _ _ _ _ _ _ a_HC); eauto; eapply out_dests_in; eauto|]. intros w Nw. unfold ttied. rewrite Et. cbn [fst]. tauto.
Qed.
Lemma a_hadj h : a_loc h -> adjacent g h con fuel = Some (a_aj h).
Proof. intros (l & -> & Hl). destruct (nth_error verts l) as [v|] eqn:Ev; [|apply nth_error_None in Ev; lia]. destruct (a_adj l v Ev) as (nb & E & _). unfold a_aj. now rewrite E. Qed.
Lemma a_nz h v : a_loc h -> In v (a_aj h) -> v <> 0.
Proof. intros (l & -> & Hl) Hv. destruct (nth_error verts l) as [u|] eqn:Ev; [|apply nth_error_None in Ev; lia]. destruct (a_adj l u Ev) as (nb & E & _). unfold a_aj in Hv. rewrite E in Hv. apply in_map_iff in Hv as (w & <- & _). lia. Qed.
Lemma a_count nb k w : (forall u, In u nb -> In u all) -> nth_error all k = Some w -> count_occ Nat.eq_dec (map (fun u => S (idx all u)) nb) (getVertex k) = count_occ Z.eq_dec nb w.
Proof.
  intros HN Hk. induction nb as [|u nb IH]; [reflexivity|]. cbn [map count_occ]. assert (HN' : forall u, In u nb -> In u all) by (intros; apply HN; right; auto). specialize (IH HN'). pose proof (nth_idx _ _ _ a_ndall Hk) as Ek. unfold getVertex in *.
  destruct (Z.eq_dec u w) as [->|N].
  - destruct (Nat.eq_dec (S (idx all w)) (k + 1)); [now rewrite IH|lia].
  - destruct (Nat.eq_dec (S (idx all u)) (k + 1)) as [E|]; [|exact IH]. exfalso. apply N. apply (idx_inj all); [apply HN; left; auto|eapply nth_error_In; eauto|lia].
Qed.
Lemma a_strong l v h : nth_error verts l = Some v -> (strongb minCon a_aj (getVertex l) h = true <-> exists k w, h = getVertex k /\ nth_error all k = Some w /\ tie v w).
Proof.
  intros Hl. destruct (a_adj l v Hl) as (nb & E & HN & HC). unfold strongb, a_aj. rewrite E. assert (Hl' : nth_error all l = Some v) by (rewrite nth_error_app1; auto; apply nth_error_Some; congruence).
  rewrite andb_true_iff, negb_true_iff, Nat.eqb_neq, Nat.leb_le. split.
  - intros (N & L). assert (I : In h (map (fun u => S (idx all u)) nb)) by (apply (count_occ_In Nat.eq_dec); lia). apply in_map_iff in I as (w & <- & Hw). pose proof (idx_nth _ _ (HN w Hw)) as Nw. exists (idx all w), w. split; [unfold getVertex; lia|]. split; auto.
    replace (S (idx all w)) with (getVertex (idx all w)) in L by (unfold getVertex; lia). rewrite (a_count nb _ w HN Nw) in L. apply HC; auto. intros ->. apply N. rewrite (nth_idx _ _ _ a_ndall Hl'). unfold getVertex; lia.
  - intros (k & w & -> & Hk & Ht). assert (Nw : w <> v) by apply Ht. split; [|rewrite (a_count nb k w HN Hk); now apply HC]. unfold getVertex. intros X. assert (k = l) by lia. subst k. congruence.
Qed.
Lemma a_tied_all l v w : nth_error verts l = Some v -> tie v w -> In w all.
Proof. intros Hl Ht. destruct (a_adj l v Hl) as (nb & _ & HN & HC). apply HN. apply HC in Ht; [|apply Ht]. apply (count_occ_In Z.eq_dec). lia. Qed.
(** the plan made by the calls cs *)
Lemma a_calls cs plan : (forall o, In o cs -> op_ok g o) -> foldM (do_op g) cs p0 = Some plan -> (forall l, In (getVertex l) (pl_sending plan) <-> planned cs l <> None) /\ forall l d, planned cs l = Some d -> l < nlv g /\ dest_of g plan (getVertex l) = d.
Proof.
  intros HOk E. destruct (plan_run _ _ _ _ _ g cs fuel a_HC) as (q0 & q1 & F1 & F2 & F3); [apply HF|exact HOk|]. assert (q0 = p0) by congruence. subst q0. assert (q1 = plan) by congruence. subst q1. destruct F3 as (_ & ES & EK & _ & EA). split.
  - intros l. rewrite ES. rewrite <- planned_get. rewrite SelectProofs.fm_get_in. split.
    + intros I. apply in_map_iff in I as (x & Ex & Ix). assert (fst x = l) by (unfold getVertex in Ex; lia). subst l. now apply in_map.
    + intros I. apply in_map_iff in I as (x & <- & Ix). apply in_map_iff. exists x. auto.
  - intros l d Hd. assert (L : l < nlv g). { apply EK. apply SelectProofs.fm_get_in. rewrite planned_get. congruence. } split; auto. unfold dest_of, plan_get. rewrite get_vtag_local, EA by auto. rewrite planned_get, Hd. reflexivity.
Qed.
Lemma a_called cs plan l v : (forall o, In o cs -> op_ok g o) -> foldM (do_op g) cs p0 = Some plan -> nth_error verts l = Some v -> (In (getVertex l) (pl_sending plan) <-> tcalled verts cs v).
Proof. intros HOk E Hl. destruct (a_calls cs plan HOk E) as (A & _). rewrite A. split; [intros X; exists l; auto|]. intros (k & Hk & X). assert (k = l) by (eapply a_vinj; eauto). now subst. Qed.
Lemma a_called' cs plan k w : (forall o, In o cs -> op_ok g o) -> foldM (do_op g) cs p0 = Some plan -> nth_error all k = Some w -> (In (getVertex k) (pl_sending plan) <-> tcalled verts cs w).
Proof.
  intros HOk E Hk. destruct (a_calls cs plan HOk E) as (A & C). rewrite A. split.
  - intros X. destruct (planned cs k) as [d|] eqn:Ep; [|congruence]. destruct (C k d Ep) as (Lk & _). rewrite a_nlv in Lk. exists k. rewrite nth_error_app1 in Hk by auto. split; auto. congruence.
  - intros (k' & Hk' & X). assert (k' = k) by (eapply a_vall; eauto). now subst.
Qed.
(** a waiting arc: its source is in the part, its target is not *)
Definition warc (e : nat) (v : Z) : Prop := exists i a, e = getEdge (ntypes g) i 0 /\ nth_error (arcs_of verts tys 0) i = Some a /\ fst (fst a) = v /\ ~ In (snd (fst a)) verts.
Lemma warc_cavity e v : warc e v -> exists l, nth_error verts l = Some v /\ cavity_of g a_pn a_ow e = [getVertex l] /\ exists u, In u (a_pn e) /\ a_ow u <> self g.
Proof.
  intros (i & a & -> & Ha & Ea & Nw). destruct (a_ends (getEdge (ntypes g) i 0) ltac:(exists i, a; auto)) as (es0 & ws & j & l & v' & m & w & x & Et & Ej & Hl & Hm & Ei & Ha' & _ & Ep & Iw & Iv). apply (getEdge_inj' 0 _ _ HT) in Ej. subst j. assert (a = ((v', w), x)) by congruence. subst a. cbn [fst snd] in *. subst v'. exists l. split; auto.
  assert (NL : l <> idx all w). { intros X. apply Nw. rewrite X in Hl. pose proof (idx_nth _ _ Iw) as Y. rewrite nth_error_app1 in Y by (apply nth_error_Some; congruence). assert (v = w) by congruence. subst w. eapply nth_error_In; eauto. }
  destruct (Nat.eqb_spec l (idx all w)); [contradiction|]. assert (Iva : In v all) by (apply in_app_iff; left; eapply nth_error_In; eauto).
  assert (O1 : a_ow (S l) = self g). { unfold a_ow. rewrite <- Iv at 1. rewrite (a_owner v Iva), a_self. apply a_mine; auto. eapply nth_error_In; eauto. }
  assert (O2 : a_ow (S (idx all w)) <> self g). { unfold a_ow. rewrite (a_owner w Iw), a_self. intros X. apply a_mine in X; auto. }
  split.
  - unfold cavity_of. rewrite Ep. cbn [filter]. rewrite O1, Z.eqb_refl. destruct (Z.eqb_spec (a_ow (S (idx all w))) (self g)); [contradiction|]. unfold addall. cbn. unfold getVertex. now rewrite Nat.add_1_r.
  - exists (S (idx all w)). rewrite Ep. split; [right; left; auto|auto].
Qed.
Section TPass.
Variables (st : sel) (cs0 : list plan_op).
Hypothesis H_ok0 : forall o, In o cs0 -> op_ok g o.
Hypothesis H_cs0 : foldM (do_op g) cs0 p0 = Some (s_plan st).
Notation lf := (left_of g a_pn a_ow st).
Lemma a_left e v : warc e v -> exists l, nth_error verts l = Some v /\ (tcalled verts cs0 v -> lf e = []) /\ (~ tcalled verts cs0 v -> lf e = [getVertex l]).
Proof.
  intros Hw. destruct (warc_cavity e v Hw) as (l & Hl & Ec & _). exists l. split; auto. unfold left_of. rewrite Ec. cbn [filter]. pose proof (a_called cs0 (s_plan st) l v H_ok0 H_cs0 Hl) as X. split; intros H.
  - apply X in H. apply smem_in in H. now rewrite H.
  - rewrite (proj2 (smem_no _ _)); [reflexivity|]. intros Y. apply H. now apply X.
Qed.
Lemma a_settled cs plan l v : (forall o, In o cs -> op_ok g o) -> foldM (do_op g) cs p0 = Some plan -> nth_error verts l = Some v -> (settled minCon a_aj (pl_sending plan) [getVertex l] <-> tloose verts tys con minCon cs v).
Proof.
  intros HOk E Hl. split.
  - intros HSt w Ht. pose proof (a_tied_all l v w Hl Ht) as Iw. pose proof (idx_nth _ _ Iw) as Nw. destruct (HSt (getVertex l) (getVertex (idx all w))) as [([H1|[]] & _)|[H1|H1]].
    + left; auto.
    + apply (a_strong l v _ Hl). exists (idx all w), w. auto.
    + exfalso. assert (EL : l = idx all w) by (unfold getVertex in H1; lia). rewrite <- EL in Nw. rewrite nth_error_app1 in Nw by (apply nth_error_Some; congruence). destruct Ht as (N & _). congruence.
    + left. now apply (a_called cs plan l v HOk E Hl).
    + right. now apply (a_called' cs plan (idx all w) w HOk E Nw).
  - intros HL u w [<-|[]] Hs. apply (a_strong l v _ Hl) in Hs as (k & y & -> & Hk & Ht). right. destruct (HL y Ht) as [X|X]; [left; now apply (a_called cs plan l v HOk E Hl)|right; now apply (a_called' cs plan k y HOk E Hk)].
Qed.
Lemma a_goes cs plan u d : (forall o, In o cs -> op_ok g o) -> foldM (do_op g) cs p0 = Some plan -> In u all ->
  ((if Z.eqb (a_ow (S (idx all u))) (self g) then smem (pl_sending plan) (S (idx all u)) && Z.eqb (dest_of g plan (S (idx all u))) d else Z.eqb (a_ow (S (idx all u))) d) = true <-> tgoes me verts owns cs u d).
Proof.
  intros HOk E Iu. destruct (a_calls cs plan HOk E) as (A & C). unfold a_ow. rewrite (a_owner u Iu), a_self. destruct (Z.eqb_spec (po u) me) as [Em|Nm].
  - apply a_mine in Em; auto. rewrite idx_app by auto. pose proof (idx_nth _ _ Em) as Nu. replace (S (idx verts u)) with (getVertex (idx verts u)) by (unfold getVertex; lia). rewrite andb_true_iff, smem_in, Z.eqb_eq, A. split.
    + intros (H1 & H2). left. exists (idx verts u). split; auto. destruct (planned cs (idx verts u)) as [k|] eqn:Ep; [|congruence]. destruct (C _ _ Ep). congruence.
    + intros [(l & Hl & Hd)|(N & _)]; [|contradiction]. assert (El : l = idx verts u) by (eapply a_vinj; eauto). rewrite <- El. split; [congruence|]. now apply C.
  - rewrite Z.eqb_eq. split.
    + intros <-. right. split; auto. intros I. apply Nm. now apply a_mine.
    + intros [(l & Hl & _)|(_ & ->)]; [|reflexivity]. exfalso. apply Nm. apply a_mine; auto. eapply nth_error_In; eauto.
Qed.
Lemma a_shared cs plan d l v : (forall o, In o cs -> op_ok g o) -> foldM (do_op g) cs p0 = Some plan -> nth_error verts l = Some v ->
  exists N, tshares me verts tys owns cs v d N /\ length N = shared g ord a_il a_pn a_ow plan [getVertex l] d.
Proof.
  intros HOk E Hl. unfold shared. assert (EO : ord [getVertex l] = [getVertex l]) by (apply Permutation_length_1_inv, Permutation_sym, H_ord). rewrite EO. destruct (a_ty 0 HT) as (es0 & ws & Et & It).
  set (F := filter (tch g a_pn a_ow plan d) (edges_of a_il 0 [getVertex l])).
  assert (HFin : forall e, In e F <-> exists i a, e = getEdge (ntypes g) i 0 /\ nth_error (arcs_of verts tys 0) i = Some a /\ fst (fst a) = v /\ (tgoes me verts owns cs v d \/ tgoes me verts owns cs (snd (fst a)) d)).
  { intros e. unfold F, edges_of. rewrite filter_In, addall_in. cbn [flat_map In]. rewrite app_nil_r, (a_il_in 0 es0 ws l v e Et Hl).
    assert (HT2 : forall i a, nth_error (arcs_of verts tys 0) i = Some a -> fst (fst a) = v -> (tch g a_pn a_ow plan d (getEdge (ntypes g) i 0) = true <-> tgoes me verts owns cs v d \/ tgoes me verts owns cs (snd (fst a)) d)).
    { intros i a Ha Ea. destruct (a_ends (getEdge (ntypes g) i 0) ltac:(exists i, a; auto)) as (es1 & ws1 & j & l' & v' & m & w & x & Et' & Ej & Hl' & Hm & Ei & Ha' & _ & Ep & Iw & Iv). apply (getEdge_inj' 0 _ _ HT) in Ej. subst j. assert (a = ((v', w), x)) by congruence. subst a. cbn [fst snd] in *. subst v'.
      assert (El : l' = l) by (eapply a_vinj; eauto). revert Iv. subst l'. intros Iv. assert (Iva : In v all) by (apply in_app_iff; left; eapply nth_error_In; eauto). pose proof (a_goes cs plan v d HOk E Iva) as G1. pose proof (a_goes cs plan w d HOk E Iw) as G2. unfold tch. rewrite existsb_exists, Ep. rewrite Iv in G1. split.
      - intros (h & Hh & Hb). assert (X : h = S l \/ h = S (idx all w)) by (destruct (l =? idx all w); cbn in Hh; intuition). destruct X as [-> | ->]; [left; now apply G1|right; now apply G2].
      - intros [X|X]; [exists (S l)|exists (S (idx all w))]; (split; [destruct (Nat.eqb_spec l (idx all w)) as [Q|Q]; cbn; rewrite <- ?Q; auto|]); [now apply G1|now apply G2]. }
    split.
    - intros ([[]|(i & a & -> & Ha & Ea)] & Hb). exists i, a. split; auto. split; auto. split; auto. now apply (HT2 i a Ha Ea).
    - intros (i & a & -> & Ha & Ea & Hb). split; [right; exists i, a; auto|now apply (HT2 i a Ha Ea)]. }
  exists (filter (fun j => smem F (getEdge (ntypes g) j 0)) (seq 0 (length (arcs_of verts tys 0)))). split.
  - split; [apply NoDup_filter, seq_NoDup|]. intros j. rewrite filter_In, smem_in, HFin, in_seq. split.
    + intros (_ & k & y & Ek & Hy & H1 & H2). apply (getEdge_inj' 0 _ _ HT) in Ek. subst k. eauto.
    + intros (y & Hy & H1 & H2). split; [assert (j < length (arcs_of verts tys 0)) by (apply nth_error_Some; congruence); lia|]. exists j, y. auto.
  - rewrite <- (map_length (fun j => getEdge (ntypes g) j 0)). apply Permutation_length, NoDup_Permutation.
    + apply FinFun.Injective_map_NoDup; [intros i j; apply (getEdge_inj' 0 _ _ HT)|apply NoDup_filter, seq_NoDup].
    + unfold F. apply NoDup_filter. unfold edges_of. apply addall_nodup. constructor.
    + intros e. rewrite in_map_iff. split.
      * intros (j & <- & Hj). apply filter_In in Hj as (_ & Hj). now apply smem_in.
      * intros He. pose proof He as Hc. apply HFin in Hc as (j & y & -> & Hy & _). exists j. split; auto. apply filter_In. split; [apply in_seq; assert (j < length (arcs_of verts tys 0)) by (apply nth_error_Some; congruence); lia|]. now apply smem_in.
Qed.
Lemma tshares_length cs v d N N' : tshares me verts tys owns cs v d N -> tshares me verts tys owns cs v d N' -> length N = length N'.
Proof. intros (A1 & A2) (B1 & B2). apply Nat.le_antisymm; apply NoDup_incl_length; auto; intros i Hi; [apply B2, A2, Hi|apply A2, B2, Hi]. Qed.
Lemma a_notme d : can_go g a_pn a_ow a_eok targets d -> d <> me /\ d <> (-1)%Z.
Proof. intros (N1 & [Ht|(e & v & He & Hv & Eo & N)]); [split; auto; now apply H_tgt|]. rewrite a_self in N. auto. Qed.
Lemma a_pass plan l m : moves g ord a_il a_pn a_ow a_eok targets minCon a_aj lf plan l m -> forall cs xs, (forall o, In o cs -> op_ok g o) -> foldM (do_op g) cs p0 = Some plan ->
  Forall2 warc l xs -> (forall v, In v xs -> ~ tcalled verts cs0 v) -> tsecond_pass me verts tys owns con minCon cs xs m.
Proof.
  induction 1 as [plan|plan plan1 e l d m HSt HGo HM HF1 _ IH|plan e l m HSt _ IH]; intros cs xs HOk E HX HN; inversion HX; subst.
  - constructor.
  - match goal with H : warc e _ |- _ => destruct (a_left e _ H) as (k & Hk & _ & El) end. specialize (El (HN y (or_introl eq_refl))). rewrite El in *. assert (EO : ord [getVertex k] = [getVertex k]) by (apply Permutation_length_1_inv, Permutation_sym, H_ord). rewrite EO in *.
    assert (EI : ins_all [getVertex k] d = [Ins k d]) by (unfold ins_all, lid_of, getVertex; cbn; now rewrite Nat.add_sub). rewrite EI in *. destruct (a_notme d HGo) as (G1 & G2). cbn [app]. apply ts_send; auto.
    + now apply (a_settled cs plan k y HOk E Hk).
    + destruct (a_shared cs plan d k y HOk E Hk) as (N & HN1 & LN). exists N. split; auto. intros d' N' HN'. destruct (a_shared cs plan d' k y HOk E Hk) as (N2 & HN2 & LN2). rewrite (tshares_length _ _ _ _ _ HN' HN2), LN2, LN. apply HM.
    + apply IH; auto.
      * intros o Ho. apply in_app_iff in Ho as [Ho|[<-|[]]]; auto. split; [rewrite a_nlv; apply nth_error_Some; congruence|auto].
      * rewrite foldM_app, E. exact HF1.
      * intros v Hv. apply HN. right; auto.
  - match goal with H : warc e _ |- _ => destruct (a_left e _ H) as (k & Hk & _ & El) end. specialize (El (HN y (or_introl eq_refl))). rewrite El in *. apply ts_stay; [|apply IH; auto; intros v Hv; apply HN; right; auto]. intros X. apply HSt. now apply (a_settled cs plan k y HOk E Hk).
Qed.
End TPass.
(** xs are the sources of the arcs still in the queue when select is done.  The pass reads the first of no peers if one of them is planned already;
    else it plans the loose ones, one after the other, for the closest part, and reports the same weight as select. *)
Theorem C43_disconnected_traditional : exists s0 st cs l xs, new_selector g fuel q p0 = Some s0 /\ select_sizes val ord pord g gw fuel targets limit dim s0 = Some st /\
  made_plan fuel g cs (s_plan st) /\ waiting (s_q st) l /\ sublist l es /\
  Forall2 (fun e v => exists i a, e = getEdge (ntypes g) i 0 /\ nth_error (arcs_of verts tys 0) i = Some a /\ fst (fst a) = v /\ ~ In (snd (fst a)) verts) l xs /\
  ((exists v, In v xs /\ tcalled verts cs v) -> selectDisconnected val ord pord g gw fuel con minCon dim st = None) /\
  ((forall v, In v xs -> ~ tcalled verts cs v) -> exists st' m, selectDisconnected val ord pord g gw fuel con minCon dim st = Some st' /\
     tsecond_pass me verts tys owns con minCon cs xs m /\ made_plan fuel g (cs ++ m) (s_plan st') /\ s_w st' = s_w st).
Proof.
  assert (HTG : forall d, chas targets d = true -> d <> (-1)%Z) by (intros d Hd; now apply H_tgt).
  assert (HDM : match dim with Some t => a_tok t | None => True end) by exact Hdim.
  assert (HBB : forall d vs, NoDup vs -> length vs <= 11 -> (forall v, In v vs -> a_loc v) -> (0 <= gain a_il a_res a_ew a_vw dim d vs <= 11 * M)%Q).
  { intros d vs _ L HL. apply (gain_bound a_il a_res a_ew a_vw a_loc a_tok dim HDM a_epos a_vpos d vs M HL); auto; [intros v Hv; apply a_load; auto|apply H_M]. }
  destruct (selection_ok val g gw fuel ord pord a_il a_pn a_ow a_res a_ew a_vw a_loc a_tok a_eok a_his a_hres a_hew a_hvw a_loc_iff HT a_heok a_hpn a_how a_hmine H_ord targets limit dim (11 * M)%Q p0 es HTG HDM H_es
    (ex_intro _ [] a_plan) (proj1 (proj2 a_plan)) HBB q H_q (proj2 H_cap) ltac:(rewrite <- (proj1 H_cap); apply H_cap) (fun e He => a_small e (H_es e He))) as (s0 & st & A & cs & l & E0 & E1 & HSel & HSub & HEx).
  specialize (HEx H_nd). pose proof HSel as (_ & HL & HQw & HE & _). pose proof HL as (HPl & HCs & HGd & _).
  assert (HOk : forall o, In o cs -> op_ok g o). { intros o Ho. destruct (HGd o Ho) as (e & h & d & -> & He & Hv & Ht). destruct (a_cavity e h (H_es e He) Hv) as (k & v & i & a & -> & Hk & _). unfold lid_of. split; [|now apply HTG]. rewrite a_nlv. unfold getVertex. replace (k + 1 - 1) with k by lia. apply nth_error_Some. congruence. }
  assert (HXS : exists xs, Forall2 warc l xs).
  { clear - HE H_es H_cut. induction l as [|e l IH]; [exists []; constructor|]. destruct IH as (xs & Hxs); [intros; apply HE; right; auto|]. destruct (H_es e (HE e (or_introl eq_refl))) as (i & a & Ha & Ee). exists (fst (fst a) :: xs). constructor; auto. exists i, a. split; auto. split; auto. split; auto. apply (H_cut i a Ha). rewrite <- Ee. apply HE. left; auto. }
  destruct HXS as (xs & HXS). exists s0, st, cs, l, xs. split; auto. split; auto. split; [exists p0; auto|]. split; auto. split; auto. split; [exact HXS|].
  assert (HCut : forall e, In e l -> exists u, In u (a_pn e) /\ a_ow u <> self g).
  { intros e He. apply In_nth_error in He as (k & Hk). destruct (Forall2_nth_l _ _ _ _ _ _ _ HXS Hk) as (v & _ & Hw). destruct (warc_cavity e v Hw) as (_ & _ & _ & X). exact X. }
  destruct (disconnected_ok val g gw fuel ord pord a_il a_pn a_ow a_res a_ew a_vw a_loc a_tok a_eok a_his a_hres a_hew a_hvw a_loc_iff HT a_heok a_hpn a_how a_hmine H_ord targets dim (11 * M)%Q p0 es HTG HDM H_es
    (ex_intro _ [] a_plan) (proj1 (proj2 a_plan)) H_pord con minCon a_aj a_hadj a_nz ltac:(lia)) with (A := A) (cs := cs) (l := l) (st := st) as (D1 & D2); auto.
  { intros e v He Hv. destruct (a_inpn e v He Hv) as (u & _ & _ & _ & _ & _ & Iu & ->). unfold a_ow. rewrite (a_owner u Iu). apply in_app_iff in Iu as [Iu|Iu]; [|now apply H_ow1]. unfold part_of. destruct (in_dec Z.eq_dec u verts); tauto. }
  { intros e v He Hv Ho (u & Hu & Nu). destruct (a_ends e He) as (es0 & ws & i & k & v' & m & w & x & Et & Ee & Hk & Hm & Ei & Ha & _ & Ep & Iw & Iv). rewrite Ep in Hv, Hu. assert (Iva : In v' all) by (apply in_app_iff; left; eapply nth_error_In; eauto).
    assert (O1 : a_ow (S k) = self g). { unfold a_ow. rewrite <- Iv at 1. rewrite (a_owner v' Iva), a_self. apply a_mine; auto. eapply nth_error_In; eauto. }
    assert (v = S k) as ->. { destruct (Nat.eqb_spec k (idx all w)) as [X|X]; cbn in Hv, Hu; [intuition|]. destruct Hv as [<-|[<-|[]]]; auto. exfalso. destruct Hu as [<-|[<-|[]]]; congruence. }
    replace (S k) with (getVertex k) by (unfold getVertex; lia). apply (a_il_in 0 es0 ws k v' _ Et Hk). exists i, ((v', w), x). auto. }
  split.
  - intros (v & Iv & Hc). apply D1. apply In_nth_error in Iv as (k & Hk). destruct (Forall2_nth_r _ _ _ _ _ _ _ HXS Hk) as (e & He & Hw). exists e. split; [eapply nth_error_In; eauto|]. destruct (a_left st cs HOk HCs e v Hw) as (_ & _ & X & _). now apply X.
  - intros Hall. destruct D2 as (st' & m & F1 & F2 & F3 & _ & F4).
    + intros e He El. apply In_nth_error in He as (k & Hk). destruct (Forall2_nth_l _ _ _ _ _ _ _ HXS Hk) as (v & Hv & Hw). destruct (a_left st cs HOk HCs e v Hw) as (j & _ & _ & X). rewrite X in El; [discriminate|]. apply Hall. eapply nth_error_In; eauto.
    + exists st', m. split; auto. split; [eapply (a_pass st cs HOk HCs); eauto|]. split; auto. exists p0. auto.
Qed.
End C43T.
(** *** a concrete case: three vertices of part 0, with arcs to vertex 10 of part 1 and vertex 11 of part 2 *)
Definition st_verts : list Z := [1; 2; 3]%Z.
Definition st_vws : list Z := [5; 6; 7]%Z.
Definition st_tys : list type_input := [([(100, [1; 10]); (101, [1; 2]); (102, [2; 1]); (103, [2; 10]); (104, [2; 10]); (105, [3; 2]); (106, [3; 11])], [])]%Z.
Definition st_owns : zmap Z := [(10, 1); (11, 2)]%Z.
Definition st_run (targets : cont Q) : option (graph * sel) :=
  g <- build_part 0 false st_verts st_vws st_tys st_owns ;; p0 <- plan_new g 200 ;; q <- createIterationQueue g 200 ;;
  s0 <- new_selector g 200 q p0 ;; st <- select_sizes inject_Z (fun c => c) (fun m => m) g None 200 targets 0%Q None s0 ;; Some (g, st).
Definition st_plan (x : graph * sel) : option (list (Z * Z)) := mapM (fun h => v <- vgid (fst x) h ;; d <- plan_get (fst x) (s_plan (snd x)) h ;; Some (v, d)) (pl_sending (s_plan (snd x))).
Definition st_second (minCon : nat) : option (list (Z * Z)) :=
  '(g, st) <- st_run (mkC [] 0%Q) ;; st' <- selectDisconnected inject_Z (fun c => c) (fun m => m) g None 200 0 minCon None st ;; st_plan (g, st').
Definition st_targets : cont Q := mkC [(1%Z, 4%Q); (2%Z, 1%Q)] 5%Q.
Definition st_es : list nat := [getEdge 1 0 0; getEdge 1 3 0; getEdge 1 4 0; getEdge 1 6 0].
(** the first pass sends vertex 1 to part 1, overshooting its target by less than a cavity, and vertex 3 to part 2; the second, when the first has no target, keeps vertex 2, which two arcs tie to
    vertex 10, when the threshold is two *)
Example C43_traditional_example : exists g p0 q st, build_part 0 false st_verts st_vws st_tys st_owns = Some g /\ plan_new g 200 = Some p0 /\ createIterationQueue g 200 = Some q /\
  valid_input false st_verts st_vws st_tys /\ (forall ty, In ty st_tys -> local_sources st_verts (fst ty)) /\
  (forall v, In v (ghosts_of st_verts st_tys) -> part_of 0 st_verts st_owns v <> 0%Z /\ part_of 0 st_verts st_owns v <> (-1)%Z) /\
  ((0 <= inject_Z 1)%Q /\ (forall w, In w st_vws -> (0 <= inject_Z w)%Q) /\ forall ty w, In ty st_tys -> In w (eweights ty) -> (0 <= inject_Z w)%Q) /\
  (length st_verts < 200 /\ forall ty, In ty st_tys -> length (fst ty) + 2 < 200) /\
  (forall d, chas st_targets d = true -> d <> 0%Z /\ d <> (-1)%Z) /\ NoDup (map fst (c_d st_targets)) /\
  waiting q st_es /\ capacity q = length (sa_cur q) /\ length st_es <= capacity q /\ NoDup st_es /\
  (forall e, In e st_es -> exists i a, nth_error (arcs_of st_verts st_tys 0) i = Some a /\ e = getEdge (ntypes g) i 0 /\ ~ In (snd (fst a)) st_verts) /\
  (forall l v, nth_error st_verts l = Some v -> (tvertex_load inject_Z st_verts st_vws st_tys None l v <= 7)%Q) /\
  st_run st_targets = Some (g, st) /\ st_plan (g, st) = Some [(1, 1); (3, 2)]%Z /\ st_second 2 = Some [(1, 1); (3, 2)]%Z /\ st_second 3 = Some [(1, 1); (2, 1); (3, 1)]%Z /\ ttied st_tys 0 2 2 10.
Proof.
  destruct (build_part 0 false st_verts st_vws st_tys st_owns) as [g|] eqn:E; [|vm_compute in E; discriminate]. destruct (plan_new g 200) as [p0|] eqn:E0; [|vm_compute in E; inversion E; subst g; vm_compute in E0; discriminate].
  destruct (createIterationQueue g 200) as [q|] eqn:E1; [|vm_compute in E; inversion E; subst g; vm_compute in E1; discriminate]. destruct (st_run st_targets) as [[g' st]|] eqn:E2; [|vm_compute in E2; discriminate].
  exists g, p0, q, st. do 3 (split; auto). vm_compute in E. inversion E; subst g. vm_compute in E1. inversion E1; subst q. vm_compute in E2. inversion E2; subst g' st. clear.
  split. { split; [repeat constructor; cbn; lia|]. split; [cbn; lia|]. split; [cbn; lia|]. intros es ws [X|[]]. inversion X; subst. split; [left; reflexivity|]. intros _ e He. cbn in He. intuition (subst e; reflexivity). }
  split. { intros ty [<-|[]] e u w He. cbn in He. intros X. intuition (subst e; inversion X; subst; cbn; auto). }
  split. { intros v Hv. vm_compute in Hv. destruct Hv as [<-|[<-|[]]]; vm_compute; split; intros X; discriminate X. }
  split. { split; [vm_compute; intros X; discriminate X|]. split; [intros w Hw; cbn in Hw; intuition (subst w; vm_compute; intros X; discriminate X)|]. intros ty w [<-|[]] Hw. vm_compute in Hw. intuition (subst w; vm_compute; intros X; discriminate X). }
  split. { split; [cbn; lia|]. intros ty [<-|[]]. cbn; lia. }
  split. { intros d. unfold chas, st_targets. cbn [c_d zfind]. destruct (Z.eqb_spec d 1) as [->|]; [intros _; lia|]. destruct (Z.eqb_spec d 2) as [->|]; [intros _; lia|discriminate]. }
  split; [repeat constructor; cbn; lia|].
  split. { split; [reflexivity|]. intros i Hi. cbn in Hi. destruct i as [|[|[|[|i]]]]; [reflexivity..|lia]. }
  split; [reflexivity|]. split; [cbn; lia|]. split; [repeat constructor; cbn; lia|].
  split. { intros e [<-|[<-|[<-|[<-|[]]]]]; [exists 0|exists 3|exists 4|exists 6]; (eexists; split; [vm_compute; reflexivity|]; split; [reflexivity|]; cbn; lia). }
  split. { intros l v Hl. destruct l as [|[|[|l]]]; [vm_compute; intros X; discriminate X..|]. destruct l; discriminate. }
  split; [vm_compute; reflexivity|]. split; [vm_compute; reflexivity|]. split; [vm_compute; reflexivity|]. split; [vm_compute; reflexivity|]. split; [discriminate|vm_compute; lia].
Qed.
Print Assumptions C43_select_traditional.
Print Assumptions C43_disconnected_traditional.
