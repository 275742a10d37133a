(** Properties C13 (tags), C14 (ghost tags), C15 (migration plans). *)
From Verif Require Import Base GraphModel GraphSpec GraphTop GraphTop2 Comm TagModel.

(* ------------------------------------------------------------------ *)
(** ** C13 *)
(** the value last written for [k] in a history of writes *)
Definition last_write (k : nat) (writes : list (nat * Z)) : option Z :=
  fold_left (fun acc w => if fst w =? k then Some (snd w) else acc) writes None.

Lemma writes_array : forall (writes : list (nat * Z)) (a : arr Z), (forall w, In w writes -> fst w < length a) ->
  exists a', foldM (fun a w => aset a (fst w) (snd w)) writes a = Some a' /\ length a' = length a /\
    forall k, k < length a -> aget a' k = fold_left (fun acc w => if fst w =? k then Some (snd w) else acc) writes (aget a k).
Proof.
  induction writes as [|w ws IH]; intros a H; cbn [foldM fold_left].
  - exists a. auto.
  - assert (L : fst w < length a) by (apply H; cbn; auto). rewrite aset_some by auto. cbn [obind].
    destruct (IH (upd a (fst w) (Some (snd w)))) as (a' & E & L' & G).
    { intros; rewrite upd_length; apply H; cbn; auto. }
    rewrite upd_length in *. exists a'. split; [exact E|]. split; [exact L'|]. intros k Hk. rewrite G by auto. f_equal.
    destruct (Nat.eqb_spec (fst w) k) as [<-|N]; [now apply aget_upd_eq|now apply aget_upd_neq].
Qed.
Lemma foldM_ext_in {S X} (f g : S -> X -> option S) l s : (forall s x, In x l -> f s x = g s x) -> foldM f l s = foldM g l s.
Proof. revert s. induction l as [|x l IH]; intros s H; cbn; auto. rewrite H by (cbn; auto). destruct (g s x); cbn; auto. apply IH. intros; apply H; cbn; auto. Qed.

(** A vertex tag: after any history of writes to local vertices, reading a local vertex returns the
    value last written for it (and is uninitialised if there was none). *)
Theorem C13_vertex_tag : forall g (writes : list (nat * Z)), (forall w, In w writes -> fst w < nlv g) ->
  exists tag0 tag, create_tag g None = Some tag0 /\
    foldM (fun a w => set_vtag a (getVertex (fst w)) (snd w)) writes tag0 = Some tag /\
    forall l, l < nlv g -> get_vtag g tag (getVertex l) = last_write l writes.
Proof.
  intros g writes H. destruct (writes_array writes (anew (nlv g))) as (a & E & L & G); [intros; rewrite anew_length; auto|].
  rewrite anew_length in *. exists (anew (nlv g)), a. split; [reflexivity|]. split.
  - rewrite <- E. apply foldM_ext_in. intros s x _. unfold set_vtag, getVertex. now rewrite Nat.add_1_r.
  - intros l Hl. unfold get_vtag, getVertex. rewrite Nat.add_1_r. cbn [vlid obind].
    destruct (Nat.leb_spec (nlv g) l); [lia|]. rewrite G by auto. now rewrite aget_anew.
Qed.

(** An edge tag of type t. *)
Theorem C13_edge_tag : forall g t ed (writes : list (nat * Z)), gtype g t = Some ed -> (forall w, In w writes -> fst w < e_num ed) ->
  exists tag0 tag, create_tag g (Some t) = Some tag0 /\
    foldM (fun a w => set_etag g a (getEdge (ntypes g) (fst w) t) (snd w)) writes tag0 = Some tag /\
    forall i, i < e_num ed -> get_etag g tag (getEdge (ntypes g) i t) = last_write i writes.
Proof.
  intros g t ed writes Ht H. destruct (writes_array writes (anew (e_num ed))) as (a & E & L & G); [intros; rewrite anew_length; auto|].
  assert (T : t < ntypes g) by (apply nth_error_Some; unfold gtype in Ht; congruence).
  assert (D : forall i, edec (ntypes g) (getEdge (ntypes g) i t) = Some (t, i)) by (intros; now apply AccessProofs.edec_getEdge).
  rewrite anew_length in *. exists (anew (e_num ed)), a. split; [cbn; now rewrite Ht|]. split.
  - rewrite <- E. apply foldM_ext_in. intros s x _. unfold set_etag. now rewrite D.
  - intros i Hi. unfold get_etag. rewrite D. cbn [obind]. rewrite G by auto. now rewrite aget_anew.
Qed.
Print Assumptions C13_vertex_tag.
Print Assumptions C13_edge_tag.
Definition ex_g : option graph := build_part 0 true [10; 11]%Z [] [([(100, [10; 20]); (101, [11; 21; 10])], [])]%Z [(20, 1); (21, 1)]%Z.
Example C13_example : (g <- ex_g ;; Some (nlv g, ngv g, map e_num (types g))) = Some (2, 2, [2]) /\
  last_write 1 [(0, 5%Z); (1, 6%Z); (1, 7%Z); (0, 8%Z)] = Some 7%Z.
Proof. vm_compute. auto. Qed.

(** For ghost vertices the property fails: reading a vertex tag at a ghost returns the value of a
    local vertex, and writing at a ghost is out of bounds (the setters do not subtract the number
    of local vertices, the getters do). *)
Theorem C13_ghost_vertex_refuted : exists g tag0 tag,
  ex_g = Some g /\ create_tag g None = Some tag0 /\
  foldM (fun a w => set_vtag a (getVertex (fst w)) (snd w)) [(0, 5%Z); (1, 6%Z)] tag0 = Some tag /\
  get_vtag g tag (getVertex 3) = get_vtag g tag (getVertex 1) /\ 3 < nlv g + ngv g /\
  set_vtag tag (getVertex 3) 9 = None.
Proof. vm_compute. repeat econstructor. Qed.

(* ------------------------------------------------------------------ *)
(** ** C14 *)
Record part_in := mkPartIn { in_verts : list Z; in_vws : list Z; in_tys : list type_input; in_owns : zmap Z }.
Definition built (hg : bool) (ps : list part_in) (gs : list graph) : Prop :=
  length gs = length ps /\ forall r p g, nth_error ps r = Some p -> nth_error gs r = Some g ->
    valid_input hg (in_verts p) (in_vws p) (in_tys p) /\
    build_part (Z.of_nat r) hg (in_verts p) (in_vws p) (in_tys p) (in_owns p) = Some g.
(** the recorded owner of every ghost is a part that has the vertex *)
Definition owners_correct (ps : list part_in) : Prop :=
  forall r p v, nth_error ps r = Some p -> In v (ghosts_of (in_verts p) (in_tys p)) ->
    exists q p', zfind (in_owns p) v = Some (Z.of_nat q) /\ nth_error ps q = Some p' /\ In v (in_verts p').

Lemma mapM_forall {X Y} (f : X -> option Y) l : (forall x, In x l -> exists y, f x = Some y) -> exists ys, mapM f l = Some ys.
Proof.
  induction l as [|x l IH]; intros H; cbn; [eauto|]. destruct (H x (or_introl eq_refl)) as (y & ->). cbn.
  destruct IH as (ys & ->); [intros; apply H; cbn; auto|]. cbn. eauto.
Qed.
Lemma mapM_in {X Y} (f : X -> option Y) l ys y : mapM f l = Some ys -> In y ys <-> exists x, In x l /\ f x = Some y.
Proof.
  revert ys. induction l as [|x l IH]; intros ys H; cbn in H.
  - inversion H; subst. cbn. split; [tauto|intros (? & [] & _)].
  - destruct (f x) as [a|] eqn:E; [|discriminate]. cbn in H. destruct (mapM f l) as [b|]; [|discriminate]. cbn in H. inversion H; subst.
    cbn. rewrite (IH b eq_refl). split.
    + intros [<-|(z & Hz & Ez)]; eauto.
    + intros (z & [<-|Hz] & Ez); [left; congruence|right; eauto].
Qed.

Lemma mapM_app_inv {X Y} (f : X -> option Y) l1 l2 ys : mapM f (l1 ++ l2) = Some ys ->
  exists y1 y2, mapM f l1 = Some y1 /\ mapM f l2 = Some y2 /\ ys = y1 ++ y2.
Proof. rewrite mapM_app. destruct (mapM f l1); cbn; [|discriminate]. destruct (mapM f l2); cbn; [|discriminate]. intros E; inversion E; eauto. Qed.


Section Ghost.
Variable hg : bool.
Variable ps : list part_in.
Variable gs : list graph.
Hypothesis HB : built hg ps gs.
Hypothesis HO : owners_correct ps.

Lemma nth_part r g : nth_error gs r = Some g -> exists p, nth_error ps r = Some p.
Proof. intros H. destruct (nth_error ps r) eqn:E; eauto. exfalso. apply nth_error_None in E. destruct HB as (L & _).
  assert (r < length gs) by (apply nth_error_Some; congruence). lia. Qed.
Lemma nth_graph r p : nth_error ps r = Some p -> exists g, nth_error gs r = Some g.
Proof. intros H. destruct (nth_error gs r) eqn:E; eauto. exfalso. apply nth_error_None in E. destruct HB as (L & _).
  assert (r < length ps) by (apply nth_error_Some; congruence). lia. Qed.

(** the requests of one part: its ghosts in order, with their recorded owners *)
Lemma requests_spec fuel r p g : nth_error ps r = Some p -> nth_error gs r = Some g -> length (ghosts_of (in_verts p) (in_tys p)) < fuel ->
  ghost_requests g fuel = Some (map (fun v => (part_of (Z.of_nat r) (in_verts p) (in_owns p) v, v)) (ghosts_of (in_verts p) (in_tys p))).
Proof.
  intros Hp Hg Hf. destruct HB as (_ & B). destruct (B r p g Hp Hg) as (HV & Hb).
  pose proof (p_constructed _ _ _ _ _ _ _ HV Hb) as HC.
  destruct (part_rep _ _ _ _ _ _ _ HV Hb) as (R & _).
  unfold ghost_requests. rewrite (AccessProofs.all_ghosts_ok _ _ _ _ _ R) by auto. cbn [obind].
  set (verts := in_verts p) in *. set (gh := ghosts_of verts (in_tys p)) in *.
  assert (G : forall l k, (forall j v, nth_error l j = Some v -> nth_error (verts ++ gh) (k + j) = Some v) ->
    mapM (fun h => gid <- vgid g h;; o <- owner g h;; Some (o, gid)) (map S (seq k (length l)))
     = Some (map (fun v => (part_of (Z.of_nat r) verts (in_owns p) v, v)) l)).
  { induction l as [|v l IH]; intros k H; [reflexivity|]. cbn [length seq map mapM].
    pose proof (H 0 v eq_refl) as Hv. rewrite Nat.add_0_r in Hv.
    pose proof (c_vgid _ _ _ _ _ _ HC k v Hv) as V. pose proof (p_owner _ _ _ _ _ _ _ HV Hb k v Hv) as W.
    unfold getVertex in V, W. rewrite Nat.add_1_r in V, W. fold verts in W. rewrite V, W. cbn [obind].
    rewrite IH; [reflexivity|]. intros j w Hj. replace (S k + j) with (k + S j) by lia. now apply H. }
  apply G. intros j v Hj. rewrite nth_error_app2 by lia. now replace (length verts + j - length verts) with j by lia.
Qed.

Variable cb : nat -> nat -> option Z.
Hypothesis HCB : forall q g l, nth_error gs q = Some g -> l < nlv g -> exists x, cb q (getVertex l) = Some x.
Variable fuel : nat.
Hypothesis HF : forall p, In p ps -> length (ghosts_of (in_verts p) (in_tys p)) < fuel.

Definition all_requests := mapM (fun g => ghost_requests g fuel) gs.
Definition all_answers (recv : list (list (Z * Z))) := par2 (fun q g arrived => ghost_answers g (cb q) arrived) 0 gs recv.
Definition all_installs (recv : list (list (Z * (Z * Z)))) := par2 (fun _ g arrived => ghost_install g arrived) 0 gs recv.

Lemma req_total : exists reqs, all_requests = Some reqs.
Proof.
  apply mapM_forall. intros g Hg. apply In_nth_error in Hg as (r & Hg). destruct (nth_part r g Hg) as (p & Hp).
  rewrite (requests_spec fuel r p g Hp Hg); eauto. apply HF. eapply nth_error_In; eauto.
Qed.
Lemma req_nth reqs r ms : all_requests = Some reqs -> nth_error reqs r = Some ms -> exists p g,
  nth_error ps r = Some p /\ nth_error gs r = Some g /\
  ms = map (fun v => (part_of (Z.of_nat r) (in_verts p) (in_owns p) v, v)) (ghosts_of (in_verts p) (in_tys p)).
Proof.
  intros E H. unfold all_requests in E.
  assert (Hg : exists g, nth_error gs r = Some g).
  { destruct (nth_error gs r) eqn:X; eauto. apply nth_error_None in X. apply mapM_length in E.
    assert (r < length reqs) by (apply nth_error_Some; congruence). lia. }
  destruct Hg as (g & Hg). destruct (nth_part r g Hg) as (p & Hp). exists p, g. split; auto. split; auto.
  destruct (mapM_nth _ _ _ _ _ _ _ E Hg) as (y & Hy & Ey).
  rewrite (requests_spec fuel r p g Hp Hg) in Ey by (apply HF; eapply nth_error_In; eauto). congruence.
Qed.
Lemma ghost_owner r p v : nth_error ps r = Some p -> In v (ghosts_of (in_verts p) (in_tys p)) ->
  exists q p' g' l, part_of (Z.of_nat r) (in_verts p) (in_owns p) v = Z.of_nat q /\ nth_error ps q = Some p' /\ nth_error gs q = Some g' /\
   nth_error (in_verts p') l = Some v /\ q < length gs.
Proof.
  intros Hp Hv. destruct (HO r p v Hp Hv) as (q & p' & Z' & Hp' & Hin). destruct (nth_graph q p' Hp') as (g' & Hg').
  apply In_nth_error in Hin as (l & Hl). exists q, p', g', l. split; [|split; [auto|split; [auto|split; [auto|apply nth_error_Some; congruence]]]].
  unfold part_of. destruct (in_dec Z.eq_dec v (in_verts p)) as [I|_]; [|now rewrite Z'].
  exfalso. destruct (nth_graph r p Hp) as (g & Hg). destruct HB as (_ & B). destruct (B r p g Hp Hg) as (HV & Hb).
  destruct (part_rep _ _ _ _ _ _ _ HV Hb) as (R & _). pose proof (ConstructProofs.rp_nd _ _ _ _ _ R) as ND.
  apply NoDup_app_iff in ND as (_ & _ & ND). exact (ND v I Hv).
Qed.
Lemma req_dests reqs : all_requests = Some reqs -> dests_ok reqs.
Proof.
  intros E ms m Hms Hm. pose proof E as E'. apply mapM_length in E'. rewrite E'.
  apply In_nth_error in Hms as (r & Hr). destruct (req_nth reqs r ms E Hr) as (p & g & Hp & Hg & ->).
  apply in_map_iff in Hm as (v & <- & Hv). destruct (ghost_owner r p v Hp Hv) as (q & p' & g' & l & -> & _ & _ & _ & L). cbn. lia.
Qed.
Lemma mapped_local q p g l v : nth_error ps q = Some p -> nth_error gs q = Some g -> nth_error (in_verts p) l = Some v -> mapped g v = l /\ l < nlv g.
Proof.
  intros Hp Hg Hl. destruct HB as (_ & B). destruct (B q p g Hp Hg) as (HV & Hb). destruct (part_rep _ _ _ _ _ _ _ HV Hb) as (R & _).
  assert (l < length (in_verts p)) by (apply nth_error_Some; congruence).
  assert (F : zfind (vmap g) v = Some l) by (apply (ConstructProofs.rp_vm _ _ _ _ _ R); now rewrite nth_error_app1).
  unfold mapped. rewrite F. split; auto. now rewrite (ConstructProofs.rp_nlv _ _ _ _ _ R).
Qed.
Lemma mapped_ghost r p g j v : nth_error ps r = Some p -> nth_error gs r = Some g -> nth_error (ghosts_of (in_verts p) (in_tys p)) j = Some v ->
  mapped g v = nlv g + j /\ j < ngv g.
Proof.
  intros Hp Hg Hl. destruct HB as (_ & B). destruct (B r p g Hp Hg) as (HV & Hb). destruct (part_rep _ _ _ _ _ _ _ HV Hb) as (R & _).
  assert (j < length (ghosts_of (in_verts p) (in_tys p))) by (apply nth_error_Some; congruence).
  assert (F : zfind (vmap g) v = Some (length (in_verts p) + j)).
  { apply (ConstructProofs.rp_vm _ _ _ _ _ R). rewrite nth_error_app2 by lia. now replace (length (in_verts p) + j - length (in_verts p)) with j by lia. }
  unfold mapped. rewrite F. rewrite (ConstructProofs.rp_nlv _ _ _ _ _ R), (ConstructProofs.rp_ngv _ _ _ _ _ R). auto.
Qed.

(** what an answer says: the value of the callback on a part having the vertex *)
Definition good_answer (r : nat) (v val : Z) : Prop := exists p q p' g' l,
  nth_error ps r = Some p /\ In v (ghosts_of (in_verts p) (in_tys p)) /\ part_of (Z.of_nat r) (in_verts p) (in_owns p) v = Z.of_nat q /\
  nth_error ps q = Some p' /\ nth_error gs q = Some g' /\ nth_error (in_verts p') l = Some v /\ cb q (getVertex l) = Some val.

Lemma ans_total reqs recv : all_requests = Some reqs -> delivered reqs recv -> exists ans, all_answers recv = Some ans.
Proof.
  intros E D. apply par2_total.
  { destruct D as (_ & L & _). rewrite L. now apply mapM_length in E. }
  intros q g arr Hg Ha. cbn [Nat.add]. apply mapM_forall. intros (s, v) Hin. cbn [fst snd].
  apply (delivered_in _ _ _ _ _ _ _ D Ha) in Hin as (r & ms & Hr & -> & Hm).
  destruct (req_nth reqs r ms E Hr) as (p & g0 & Hp & Hg0 & ->). apply in_map_iff in Hm as (v' & Ev & Hv). inversion Ev; subst v'.
  destruct (ghost_owner r p v Hp Hv) as (q' & p' & g' & l & Ho & Hp' & Hg' & Hl & _).
  assert (q' = q) by lia. subst q'. assert (g' = g) by congruence. subst g'.
  destruct (mapped_local q p' g l v Hp' Hg Hl) as (-> & Ll). destruct (HCB q g l Hg Ll) as (x & ->). cbn. eauto.
Qed.
Lemma ans_nth reqs recv ans q ms d v val : all_requests = Some reqs -> delivered reqs recv -> all_answers recv = Some ans ->
  nth_error ans q = Some ms -> In (d, (v, val)) ms ->
  exists r, d = Z.of_nat r /\ r < length gs /\ good_answer r v val.
Proof.
  intros E D EA Hq Hin. destruct (par2_nth _ _ _ _ _ _ _ _ _ _ EA Hq) as (g & arr & Hg & Ha & EM). cbn [Nat.add] in EM.
  destruct (proj1 (mapM_in _ _ _ _ EM) Hin) as ((s, w) & Hs & Ew). cbn [fst snd] in Ew.
  destruct (cb q (getVertex (mapped g w))) as [x|] eqn:Ecb; [|discriminate]. cbn in Ew. inversion Ew; subst s w x. clear Ew.
  apply (delivered_in _ _ _ _ _ _ _ D Ha) in Hs as (r & ms' & Hr & -> & Hm).
  destruct (req_nth reqs r ms' E Hr) as (p & g0 & Hp & Hg0 & ->). apply in_map_iff in Hm as (v' & Ev & Hv). inversion Ev; subst v'.
  destruct (ghost_owner r p v Hp Hv) as (q' & p' & g' & l & Ho & Hp' & Hg' & Hl & _).
  assert (q' = q) by lia. subst q'. exists r. split; auto. split; [apply nth_error_Some; congruence|].
  destruct (mapped_local q p' g' l v Hp' Hg' Hl) as (M & _). assert (g' = g) by congruence. subst g'. rewrite M in Ecb.
  exists p, q, p', g, l. auto 10.
Qed.
Lemma ans_dests reqs recv ans : all_requests = Some reqs -> delivered reqs recv -> all_answers recv = Some ans -> dests_ok ans.
Proof.
  intros E D EA ms (d, (v, val)) Hms Hm. apply In_nth_error in Hms as (q & Hq).
  destruct (ans_nth reqs recv ans q ms d v val E D EA Hq Hm) as (r & -> & L & _).
  apply par2_length in EA as (-> & _). cbn. lia.
Qed.
(** every ghost gets an answer *)
Lemma ans_complete reqs recv ans recv2 r p arr v : all_requests = Some reqs -> delivered reqs recv -> all_answers recv = Some ans -> delivered ans recv2 ->
  nth_error ps r = Some p -> nth_error recv2 r = Some arr -> In v (ghosts_of (in_verts p) (in_tys p)) -> exists s val, In (s, (v, val)) arr.
Proof.
  intros E D EA D2 Hp Harr Hv. destruct (ghost_owner r p v Hp Hv) as (q & p' & g' & l & Ho & Hp' & Hg' & Hl & Lq).
  pose proof (mapM_length _ _ _ _ _ E) as LR. destruct (par2_length _ _ _ _ _ _ _ _ EA) as (LA & Lrec).
  destruct (nth_graph r p Hp) as (g & Hg).
  destruct (nth_error reqs r) as [ms|] eqn:Er; [|apply nth_error_None in Er; assert (r < length gs) by (apply nth_error_Some; congruence); lia].
  destruct (req_nth reqs r ms E Er) as (p0 & g0 & Hp0 & Hg0 & Ems). assert (p0 = p) by congruence. subst p0.
  destruct (nth_error recv q) as [arrq|] eqn:Eq; [|apply nth_error_None in Eq; lia].
  destruct (nth_error ans q) as [msq|] eqn:Eqa; [|apply nth_error_None in Eqa; lia].
  destruct (par2_nth _ _ _ _ _ _ _ _ _ _ EA Eqa) as (gq & arrq' & Hgq & Ha & EM). cbn [Nat.add] in EM.
  assert (arrq' = arrq) by congruence. subst arrq'. assert (gq = g') by congruence. subst gq.
  assert (In (Z.of_nat r, v) arrq).
  { apply (delivered_in _ _ _ _ _ _ _ D Ha). exists r, ms. split; auto. split; auto. rewrite Ems. apply in_map_iff. exists v. rewrite Ho. auto. }
  destruct (mapped_local q p' g' l v Hp' Hg' Hl) as (M & Ll). destruct (HCB q g' l Hg' Ll) as (x & Ex).
  exists (Z.of_nat q), x. apply (delivered_in _ _ _ _ _ _ _ D2 Harr). exists q, msq. split; auto. split; auto.
  apply (mapM_in _ _ _ _ EM). exists (Z.of_nat r, v). split; auto. cbn [fst snd]. now rewrite M, Ex.
Qed.

Lemma good_answer_fun r v a b : good_answer r v a -> good_answer r v b -> a = b.
Proof.
  intros (p & q & p' & g' & l & H1 & H2 & H3 & H4 & H5 & H6 & H7) (p2 & q2 & p2' & g2' & l2 & K1 & K2 & K3 & K4 & K5 & K6 & K7).
  assert (p2 = p) by congruence. subst p2. assert (q2 = q) by lia. subst q2. assert (p2' = p') by congruence. subst p2'.
  destruct (mapped_local q p' g' l v H4 H5 H6) as (M1 & _). destruct (mapped_local q p' g' l2 v H4 H5 K6) as (M2 & _).
  congruence.
Qed.

Lemma foldM_map_l {S X Y} (f : S -> Y -> option S) (k : X -> Y) l s : foldM f (map k l) s = foldM (fun s x => f s (k x)) l s.
Proof. revert s. induction l; intros; cbn; auto. destruct (f s (k a)); cbn; auto. Qed.

Lemma last_unique k (w : list (nat * Z)) x : (forall y, In (k, y) w -> y = x) -> (exists y, In (k, y) w) -> last_write k w = Some x.
Proof.
  unfold last_write. generalize (@None Z). induction w as [|(i, y) w IH]; intros o H (z & Hz); [destruct Hz|]. cbn [fold_left fst snd].
  destruct (in_dec Nat.eq_dec k (map fst w)) as [I|N].
  - apply IH; [intros; apply H; right; auto|]. apply in_map_iff in I as ((k', z') & <- & Hz'). eauto.
  - destruct Hz as [Hz|Hz]; [|exfalso; apply N, in_map_iff; exists (k, z); auto].
    inversion Hz; subst. rewrite Nat.eqb_refl. assert (z = x) by (apply H; left; auto). subst.
    assert (G : forall (w : list (nat * Z)) (o : option Z), ~ In k (map fst w) -> fold_left (fun acc w => if fst w =? k then Some (snd w) else acc) w o = o).
    { clear. induction w as [|(i, y) w IH]; intros o N; cbn in *; auto. destruct (Nat.eqb_spec i k); [tauto|]. apply IH. tauto. }
    now apply G.
Qed.

Lemma install_ok reqs recv ans recv2 r p g arr : all_requests = Some reqs -> delivered reqs recv -> all_answers recv = Some ans -> delivered ans recv2 ->
  nth_error ps r = Some p -> nth_error gs r = Some g -> nth_error recv2 r = Some arr ->
  exists tag, ghost_install g arr = Some tag /\
    forall j v, nth_error (ghosts_of (in_verts p) (in_tys p)) j = Some v -> exists val, aget tag j = Some val /\ good_answer r v val.
Proof.
  intros E D EA D2 Hp Hg Harr.
  assert (A : forall s v val, In (s, (v, val)) arr -> good_answer r v val).
  { intros s v val H. apply (delivered_in _ _ _ _ _ _ _ D2 Harr) in H as (q & ms & Hq & -> & Hm).
    destruct (ans_nth reqs recv ans q ms _ v val E D EA Hq Hm) as (r' & Er & _ & G). assert (r' = r) by lia. now subst. }
  assert (B : forall s v val, In (s, (v, val)) arr -> exists j, nth_error (ghosts_of (in_verts p) (in_tys p)) j = Some v /\ mapped g v = nlv g + j /\ j < ngv g).
  { intros s v val H. apply A in H as (p0 & q & p' & g' & l & H1 & H2 & _). assert (p0 = p) by congruence. subst p0.
    apply In_nth_error in H2 as (j & Hj). exists j. split; auto. eapply mapped_ghost; eauto. }
  set (ws := map (fun m : Z * (Z * Z) => (mapped g (fst (snd m)) - nlv g, snd (snd m))) arr).
  destruct (writes_array ws (anew (ngv g))) as (tag & Et & Lt & Gt).
  { intros w Hw. apply in_map_iff in Hw as ((s, (v, val)) & <- & Hin). cbn [fst snd]. destruct (B s v val Hin) as (j & _ & M & Lj). rewrite anew_length. lia. }
  exists tag. split.
  - rewrite <- Et. unfold ghost_install, ws. rewrite foldM_map_l. apply foldM_ext_in. intros a (s, (v, val)) Hin. cbn [fst snd].
    destruct (B s v val Hin) as (j & _ & M & Lj). unfold getVertex. rewrite Nat.add_1_r. cbn [vlid obind].
    destruct (Nat.ltb_spec (mapped g v) (nlv g)); [lia|reflexivity].
  - intros j v Hj. destruct (mapped_ghost r p g j v Hp Hg Hj) as (M & Lj).
    destruct (ans_complete reqs recv ans recv2 r p arr v E D EA D2 Hp Harr) as (s & val & Hin); [eapply nth_error_In; eauto|].
    exists val. split; [|eapply A; eauto]. rewrite Gt by (rewrite anew_length; auto). rewrite aget_anew.
    apply (last_unique j ws val).
    + intros y Hy. apply in_map_iff in Hy as ((s', (v', val')) & Ey & Hin'). cbn [fst snd] in Ey. inversion Ey as [[Ej Ey']]. subst val'.
      destruct (B s' v' y Hin') as (j' & Hj' & M' & Lj').
      assert (j' = j) by lia. subst j'. assert (v' = v) by congruence. subst v'.
      apply (good_answer_fun r v); eapply A; eauto.
    + exists val. apply in_map_iff. exists (s, (v, val)). split; auto. cbn [fst snd]. f_equal. lia.
Qed.
End Ghost.

(** C14: for every arrival order of the requests and of the answers, creating a ghost tag succeeds
    on every part and leaves at each ghost the value the callback has on the part owning it. *)
Theorem C14_ghost_tag : forall hg ps gs (cb : nat -> nat -> option Z) fuel,
  built hg ps gs -> owners_correct ps ->
  (forall q g l, nth_error gs q = Some g -> l < nlv g -> exists x, cb q (getVertex l) = Some x) ->
  (forall p, In p ps -> length (ghosts_of (in_verts p) (in_tys p)) < fuel) ->
  exists reqs, mapM (fun g => ghost_requests g fuel) gs = Some reqs /\ dests_ok reqs /\
  forall recv, delivered reqs recv ->
  exists ans, par2 (fun q g arrived => ghost_answers g (cb q) arrived) 0 gs recv = Some ans /\ dests_ok ans /\
  forall recv2, delivered ans recv2 ->
  exists tags, par2 (fun _ g arrived => ghost_install g arrived) 0 gs recv2 = Some tags /\
  forall r g h v, nth_error gs r = Some g -> vgid g h = Some v -> nlv g < h ->
    exists tag q gq hq, nth_error tags r = Some tag /\ owner g h = Some (Z.of_nat q) /\ nth_error gs q = Some gq /\
      findGID gq v = Some hq /\ owner gq hq = Some (Z.of_nat q) /\ get_vtag g tag h = cb q hq.
Proof.
  intros hg ps gs cb fuel HB HO HCB HF.
  destruct (req_total hg ps gs HB fuel HF) as (reqs & E). exists reqs. split; [exact E|].
  split; [eapply req_dests; eauto|]. intros recv D.
  destruct (ans_total hg ps gs HB HO cb HCB fuel HF reqs recv E D) as (ans & EA). exists ans. split; [exact EA|].
  split; [eapply ans_dests; eauto|]. intros recv2 D2.
  assert (L2 : length recv2 = length gs).
  { destruct D2 as (_ & -> & _). now apply par2_length in EA as (-> & _). }
  destruct (par2_total _ _ _ (fun _ g arrived => ghost_install g arrived) 0 gs recv2 L2) as (tags & ET).
  { intros r g arr Hg Ha. destruct (nth_part hg ps gs HB r g Hg) as (p & Hp).
    destruct (install_ok hg ps gs HB HO cb HCB fuel HF reqs recv ans recv2 r p g arr E D EA D2 Hp Hg Ha) as (tag & -> & _). eauto. }
  exists tags. split; [exact ET|]. intros r g h v Hg Hv Hh.
  destruct (nth_part hg ps gs HB r g Hg) as (p & Hp). pose proof HB as (_ & B). destruct (B r p g Hp Hg) as (HV & Hb).
  pose proof (p_constructed _ _ _ _ _ _ _ HV Hb) as HC. destruct (part_rep _ _ _ _ _ _ _ HV Hb) as (R & _).
  destruct h as [|l]; [lia|].
  assert (Hj : exists j, l = nlv g + j /\ nth_error (ghosts_of (in_verts p) (in_tys p)) j = Some v).
  { exists (l - nlv g). split; [lia|]. unfold vgid in Hv. cbn [vlid obind] in Hv. destruct (Nat.leb_spec (nlv g) l); [|lia].
    rewrite (ConstructProofs.rp_gun _ _ _ _ _ R), aget_ainit in Hv. exact Hv. }
  destruct Hj as (j & -> & Hj).
  destruct (par2_length _ _ _ _ _ _ _ _ ET) as (LT & _). assert (r < length gs) by (apply nth_error_Some; congruence).
  destruct (nth_error tags r) as [tag|] eqn:Et; [|apply nth_error_None in Et; lia].
  destruct (par2_nth _ _ _ _ _ _ _ _ _ _ ET Et) as (g0 & arr & Hg0 & Ha & Ei). assert (g0 = g) by congruence. subst g0.
  destruct (install_ok hg ps gs HB HO cb HCB fuel HF reqs recv ans recv2 r p g arr E D EA D2 Hp Hg Ha) as (tag' & Et' & GT).
  assert (tag' = tag) by congruence. subst tag'.
  destruct (GT j v Hj) as (val & Gv & p0 & q & p' & gq & l & H1 & H2 & H3 & H4 & H5 & H6 & H7).
  assert (p0 = p) by congruence. subst p0.
  exists tag, q, gq, (getVertex l). split; [reflexivity|].
  assert (NV : nlv g = length (in_verts p)) by (apply (ConstructProofs.rp_nlv _ _ _ _ _ R)).
  assert (Hall : nth_error (in_verts p ++ ghosts_of (in_verts p) (in_tys p)) (nlv g + j) = Some v).
  { rewrite nth_error_app2 by lia. rewrite NV. now replace (length (in_verts p) + j - length (in_verts p)) with j by lia. }
  split; [|split; [exact H5|]].
  - pose proof (p_owner _ _ _ _ _ _ _ HV Hb _ v Hall) as W. unfold getVertex in W. rewrite Nat.add_1_r in W. now rewrite W, H3.
  - destruct (B q p' gq H4 H5) as (HV' & Hb').
    assert (Ll : l < length (in_verts p')) by (apply nth_error_Some; congruence).
    assert (Hall' : nth_error (in_verts p' ++ ghosts_of (in_verts p') (in_tys p')) l = Some v) by (now rewrite nth_error_app1).
    split; [exact (c_find _ _ _ _ _ _ (p_constructed _ _ _ _ _ _ _ HV' Hb') l v Hall')|]. split.
    + rewrite (p_owner _ _ _ _ _ _ _ HV' Hb' l v Hall'). unfold part_of.
      destruct (in_dec Z.eq_dec v (in_verts p')) as [|N]; [reflexivity|]. exfalso. apply N. eapply nth_error_In; eauto.
    + rewrite H7. unfold get_vtag. cbn [vlid obind]. destruct (Nat.leb_spec (nlv g) (nlv g + j)); [|lia].
      now replace (nlv g + j - nlv g) with j by lia.
Qed.
Print Assumptions C14_ghost_tag.
(** non-vacuity: two parts, each with ghosts of the other *)
Definition ex_ps : list part_in :=
  [ mkPartIn [10; 11] [] [([(100, [10; 20]); (101, [11; 21; 10])], [])] [(20, 1); (21, 1)];
    mkPartIn [20; 21] [] [([(101, [11; 21; 10]); (100, [10; 20])], [])] [(10, 0); (11, 0)] ]%Z.
Definition ex_gs : option (list graph) :=
  mapM (fun rp => build_part (Z.of_nat (fst rp)) true (in_verts (snd rp)) (in_vws (snd rp)) (in_tys (snd rp)) (in_owns (snd rp)))
       (combine (seq 0 2) ex_ps).
Example C14_example : exists gs, ex_gs = Some gs /\ built true ex_ps gs /\ owners_correct ex_ps /\
  mapM (fun g => ghost_requests g 9) gs = Some [[(1, 20); (1, 21)]; [(0, 11); (0, 10)]]%Z.
Proof.
  eexists. split; [vm_compute; reflexivity|]. split; [|split].
  - split; [reflexivity|]. intros r p g Hp Hg. destruct r as [|[|r]]; cbn in Hp, Hg; try (destruct r; discriminate);
    inversion Hp; inversion Hg; subst; (split; [|vm_compute; reflexivity]); cbn [in_verts in_vws in_tys];
    (split; [repeat constructor; cbn; intuition congruence|]; split; [cbn; lia|]; split; [cbn; lia|];
     intros es ws [E|[]]; inversion E; subst; (split; [auto|discriminate])).
  - intros r p v Hp Hv. destruct r as [|[|r]]; cbn in Hp; try (destruct r; discriminate); inversion Hp; subst; vm_compute in Hv.
    + destruct Hv as [<-|[<-|[]]]; exists 1; eexists; (split; [reflexivity|]; split; [reflexivity|]; cbn; auto).
    + destruct Hv as [<-|[<-|[]]]; exists 0; eexists; (split; [reflexivity|]; split; [reflexivity|]; cbn; auto).
  - vm_compute. reflexivity.
Qed.

(* ------------------------------------------------------------------ *)
(** ** C15 *)
Inductive plan_op := Ins (l : nat) (d : Z) | Clr.
Definition do_op (g : graph) (p : mplan) (o : plan_op) : option mplan :=
  match o with Ins l d => '(p', _) <- plan_insert g p (getVertex l) d ;; Some p' | Clr => plan_clear p end.
(** the specification: an ordered finite map *)
Fixpoint fm_get (m : list (nat * Z)) (l : nat) : option Z :=
  match m with [] => None | (k, d) :: r => if k =? l then Some d else fm_get r l end.
Fixpoint fm_put (m : list (nat * Z)) (l : nat) (d : Z) : list (nat * Z) :=
  match m with [] => [(l, d)] | (k, x) :: r => if k =? l then (k, d) :: r else (k, x) :: fm_put r l d end.
Definition fm_op (m : list (nat * Z)) (o : plan_op) : list (nat * Z) :=
  match o with Ins l d => fm_put m l d | Clr => [] end.
Definition fm_run (ops : list plan_op) : list (nat * Z) := fold_left fm_op ops [].
Definition op_ok (g : graph) (o : plan_op) : Prop := match o with Ins l d => l < nlv g /\ d <> (-1)%Z | Clr => True end.

Lemma fm_get_put m l d k : fm_get (fm_put m l d) k = if l =? k then Some d else fm_get m k.
Proof.
  induction m as [|(a, x) m IH]; cbn; [now destruct (l =? k)|]. destruct (Nat.eqb_spec a l) as [->|N]; cbn.
  - destruct (l =? k); auto. - rewrite IH. destruct (Nat.eqb_spec a k), (Nat.eqb_spec l k); auto; congruence.
Qed.
Lemma fm_keys_put m l d : map fst (fm_put m l d) = if fm_get m l then map fst m else map fst m ++ [l].
Proof.
  induction m as [|(a, x) m IH]; cbn; auto. destruct (Nat.eqb_spec a l) as [->|N]; cbn; auto. rewrite IH. now destruct (fm_get m l).
Qed.
Lemma fm_get_in m l : fm_get m l = None <-> ~ In l (map fst m).
Proof. induction m as [|(a, x) m IH]; cbn; [tauto|]. destruct (Nat.eqb_spec a l) as [->|N]; [split; [discriminate|tauto]|]. rewrite IH. intuition congruence. Qed.

Section Plan.
Variable g : graph.
Definition PInv (p : mplan) (m : list (nat * Z)) : Prop :=
  length (pl_dest p) = nlv g /\ pl_sending p = map (fun e => getVertex (fst e)) m /\
  (forall l, In l (map fst m) -> l < nlv g) /\ (forall l, fm_get m l <> Some (-1)%Z) /\
  forall l, l < nlv g -> aget (pl_dest p) l = Some (match fm_get m l with Some d => d | None => (-1)%Z end).

Lemma get_vtag_local a l : l < nlv g -> get_vtag g a (getVertex l) = aget a l.
Proof. intros. unfold get_vtag, getVertex. rewrite Nat.add_1_r. cbn [vlid obind]. destruct (Nat.leb_spec (nlv g) l); [lia|auto]. Qed.
Lemma set_vtag_ok a l x : l < length a -> set_vtag a (getVertex l) x = Some (upd a l (Some x)).
Proof. intros. unfold set_vtag, getVertex. rewrite Nat.add_1_r. cbn [vlid obind]. now apply aset_some. Qed.
Lemma inv_has p m l : PInv p m -> l < nlv g -> plan_has g p (getVertex l) = Some (match fm_get m l with Some _ => true | None => false end).
Proof.
  intros (L & _ & _ & N & A) Hl. unfold plan_has. unfold getVertex at 1. rewrite Nat.add_1_r. cbn [vlid obind].
  destruct (Nat.ltb_spec l (nlv g)); [|lia]. rewrite get_vtag_local, A by auto. cbn [obind]. specialize (N l).
  destruct (fm_get m l) as [d|]; auto. destruct (Z.eqb_spec d (-1)); [congruence|auto].
Qed.
Lemma inv_insert p m l d : PInv p m -> l < nlv g -> d <> (-1)%Z ->
  exists p', plan_insert g p (getVertex l) d = Some (p', match fm_get m l with Some _ => false | None => true end) /\ PInv p' (fm_put m l d).
Proof.
  intros HI Hl Hd. pose proof HI as (L & S & K & N & A). unfold plan_insert. rewrite (inv_has p m l HI Hl). cbn [obind].
  rewrite set_vtag_ok by lia.
  assert (Q : forall snd', snd' = map (fun e => getVertex (fst e)) (fm_put m l d) -> PInv (mkPlan (upd (pl_dest p) l (Some d)) snd') (fm_put m l d)).
  { intros s Es. split; [cbn; now rewrite upd_length|]. split; [exact Es|]. split; [|split].
    - intros k Hk. rewrite fm_keys_put in Hk. destruct (fm_get m l); [auto|]. apply in_app_iff in Hk as [Hk|[<-|[]]]; auto.
    - intros k. rewrite fm_get_put. destruct (l =? k); [congruence|apply N].
    - intros k Hk. cbn [pl_dest]. rewrite fm_get_put. destruct (Nat.eqb_spec l k) as [<-|Ne]; [apply aget_upd_eq; lia|]. rewrite aget_upd_neq by auto. now apply A. }
  assert (M : map (fun e : nat * Z => getVertex (fst e)) (fm_put m l d) = if fm_get m l then pl_sending p else pl_sending p ++ [getVertex l]).
  { transitivity (map getVertex (map fst (fm_put m l d))); [now rewrite map_map|]. rewrite fm_keys_put, S.
    destruct (fm_get m l); [now rewrite map_map|]. rewrite map_app, map_map. reflexivity. }
  destruct (fm_get m l); cbn [obind]; eexists; (split; [reflexivity|]); apply Q; symmetry; exact M.
Qed.
Lemma inv_clear p m : PInv p m -> exists p', plan_clear p = Some p' /\ PInv p' [].
Proof.
  intros (L & S & K & N & A). unfold plan_clear. rewrite S.
  destruct (writes_array (map (fun e => (fst e, (-1)%Z)) m) (pl_dest p)) as (a & E & La & G).
  { intros w Hw. apply in_map_iff in Hw as (e & <- & He). cbn. rewrite L. apply K. now apply in_map. }
  replace (foldM (fun a h => set_vtag a h (-1)%Z) (map (fun e => getVertex (fst e)) m) (pl_dest p))
    with (foldM (fun a w => aset a (fst w) (snd w)) (map (fun e : nat * Z => (fst e, (-1)%Z)) m) (pl_dest p)).
  2: { rewrite !foldM_map_l. apply foldM_ext_in. intros s e _. unfold set_vtag, getVertex. now rewrite Nat.add_1_r. }
  rewrite E. cbn [obind]. eexists. split; [reflexivity|]. split; [cbn; congruence|]. split; [reflexivity|]. split; [intros l []|]. split; [discriminate|].
  intros l Hl. cbn [pl_dest fm_get]. rewrite G by lia.
  destruct (in_dec Nat.eq_dec l (map fst m)) as [I|NI].
  - assert (Q : forall o, fold_left (fun acc (w : nat * Z) => if fst w =? l then Some (snd w) else acc) (map (fun e : nat * Z => (fst e, (-1)%Z)) m) o = Some (-1)%Z).
    { clear - I. induction m as [|(k, x) m IH]; intros o; [destruct I|]. cbn [map fold_left fst snd].
      destruct (in_dec Nat.eq_dec l (map fst m)) as [I'|N']; [now apply IH|]. destruct I as [<-|I]; [|contradiction]. cbn [fst]. rewrite Nat.eqb_refl.
      clear IH. induction m as [|(j, y) m IH]; cbn; auto. cbn in N'. destruct (Nat.eqb_spec j k); [tauto|]. apply IH. tauto. }
    apply Q.
  - assert (Q : forall o, fold_left (fun acc (w : nat * Z) => if fst w =? l then Some (snd w) else acc) (map (fun e : nat * Z => (fst e, (-1)%Z)) m) o = o).
    { clear - NI. induction m as [|(k, x) m IH]; intros o; auto. cbn in NI |- *. destruct (Nat.eqb_spec k l); [tauto|]. apply IH. tauto. }
    rewrite Q, A by auto. apply fm_get_in in NI. now rewrite NI.
Qed.
End Plan.

Lemma plan_run me hg verts vws tys g ops fuel : constructed me hg verts vws tys g -> length verts < fuel -> (forall o, In o ops -> op_ok g o) ->
  exists p0 p, plan_new g fuel = Some p0 /\ foldM (do_op g) ops p0 = Some p /\ PInv g p (fm_run ops).
Proof.
  intros HC Hf H. destruct (constructed_rep _ _ _ _ _ _ HC) as (R & _).
  assert (N : exists p0, plan_new g fuel = Some p0 /\ PInv g p0 []).
  { unfold plan_new. destruct (Nat.eqb_spec (nlv g) 0) as [Z0|NZ].
    - eexists. split; [reflexivity|]. split; [now cbn|]. split; [reflexivity|]. split; [intros l []|]. split; [discriminate|]. intros; lia.
    - cbn [create_tag obind]. rewrite (AccessProofs.all_verts_ok _ _ _ _ _ R) by auto. cbn [obind].
      rewrite <- (ConstructProofs.rp_nlv _ _ _ _ _ R).
      destruct (writes_array (map (fun l => (l, (-1)%Z)) (seq 0 (nlv g))) (anew (nlv g))) as (a & E & La & G).
      { intros w Hw. apply in_map_iff in Hw as (e & <- & He). cbn. rewrite anew_length. apply in_seq in He. lia. }
      rewrite (foldM_map_l _ (fun l => (l, (-1)%Z))) in E. rewrite (foldM_map_l _ S).
      replace (foldM (fun s x => set_vtag s (S x) (-1)%Z) (seq 0 (nlv g)) (anew (nlv g))) with (Some a) by (rewrite <- E; apply foldM_ext_in; reflexivity).
      cbn [obind]. eexists. split; [reflexivity|]. split; [cbn; rewrite La; apply anew_length|]. split; [reflexivity|]. split; [intros l []|]. split; [discriminate|].
      intros l Hl. cbn [pl_dest fm_get]. rewrite G by (rewrite anew_length; auto). rewrite aget_anew. apply (last_unique l (map (fun l => (l, (-1)%Z)) (seq 0 (nlv g))) (-1)%Z).
      + intros y Hy. apply in_map_iff in Hy as (z & Ez & _). congruence.
      + exists (-1)%Z. apply in_map_iff. exists l. split; auto. apply in_seq. lia. }
  destruct N as (p0 & E0 & I0). exists p0.
  assert (G : forall ops p m, (forall o, In o ops -> op_ok g o) -> PInv g p m -> exists p', foldM (do_op g) ops p = Some p' /\ PInv g p' (fold_left fm_op ops m)).
  { clear. induction ops as [|o ops IH]; intros p m H I; cbn [foldM fold_left]; [eauto|].
    assert (S1 : exists p1, do_op g p o = Some p1 /\ PInv g p1 (fm_op m o)).
    { specialize (H o (or_introl eq_refl)). destruct o as [l d|]; cbn in *.
      - destruct H as (Hl & Hd). destruct (inv_insert g p m l d I Hl Hd) as (p' & -> & I'). cbn. eauto.
      - now apply (inv_clear g p m). }
    destruct S1 as (p1 & -> & I1). cbn [obind]. apply IH; auto. intros; apply H; cbn; auto. }
  destruct (G ops p0 [] H I0) as (p & E & I). exists p. auto.
Qed.

(** C15: after any history of insertions (of local vertices, destination not -1) and clears, the
    plan is the ordered finite map obtained by the same history. *)
Theorem C15_plan : forall me hg verts vws tys g ops fuel,
  constructed me hg verts vws tys g -> length verts < fuel -> (forall o, In o ops -> op_ok g o) ->
  exists p0 p, plan_new g fuel = Some p0 /\ foldM (do_op g) ops p0 = Some p /\
    plan_size p = length (fm_run ops) /\
    pl_sending p = map (fun e => getVertex (fst e)) (fm_run ops) /\
    (forall l, l < nlv g -> plan_has g p (getVertex l) = Some (match fm_get (fm_run ops) l with Some _ => true | None => false end)) /\
    (forall l d, fm_get (fm_run ops) l = Some d -> plan_get g p (getVertex l) = Some d) /\
    (forall l, nlv g <= l -> plan_has g p (getVertex l) = Some false) /\
    (forall l d, l < nlv g -> d <> (-1)%Z -> option_map snd (plan_insert g p (getVertex l) d) = Some (match fm_get (fm_run ops) l with Some _ => false | None => true end)).
Proof.
  intros me hg verts vws tys g ops fuel HC Hf H. destruct (plan_run me hg verts vws tys g ops fuel HC Hf H) as (p0 & p & E0 & E & I).
  exists p0, p. split; [exact E0|]. split; [exact E|]. pose proof I as (L & S & K & N & A).
  split; [unfold plan_size; now rewrite S, map_length|]. split; [exact S|]. split; [intros l Hl; now apply inv_has|]. split; [|split].
  - intros l d Hd. assert (l < nlv g).
    { apply K. destruct (in_dec Nat.eq_dec l (map fst (fm_run ops))) as [|NI]; auto. apply fm_get_in in NI. congruence. }
    unfold plan_get. rewrite get_vtag_local, A by auto. now rewrite Hd.
  - intros l Hl. unfold plan_has, getVertex. rewrite Nat.add_1_r. cbn [vlid obind]. destruct (Nat.ltb_spec l (nlv g)); [lia|auto].
  - intros l d Hl Hd. destruct (inv_insert g p _ l d I Hl Hd) as (p' & -> & _). reflexivity.
Qed.
(** what the specification map is: it never repeats a vertex, the value is the last one inserted after the last clear *)
Theorem C15_spec_meaning : forall ops l d,
  NoDup (map fst (fm_run ops)) /\ fm_run (ops ++ [Clr]) = [] /\
  (forall k, fm_get (fm_run (ops ++ [Ins l d])) k = if l =? k then Some d else fm_get (fm_run ops) k) /\
  map fst (fm_run (ops ++ [Ins l d])) = if in_dec Nat.eq_dec l (map fst (fm_run ops)) then map fst (fm_run ops) else map fst (fm_run ops) ++ [l].
Proof.
  intros ops l d. unfold fm_run. rewrite !fold_left_app. cbn [fold_left fm_op]. split; [|split; [reflexivity|split]].
  - assert (G : forall ops m, NoDup (map fst m) -> NoDup (map fst (fold_left fm_op ops m))).
    { clear. induction ops as [|o ops IH]; intros m H; cbn; auto. apply IH. destruct o as [l d|]; cbn; [|constructor].
      rewrite fm_keys_put. destruct (fm_get m l) eqn:E; auto. apply fm_get_in in E. apply NoDup_app_iff. split; auto. split; [repeat constructor; tauto|].
      intros x Hx [<-|[]]. contradiction. }
    apply G. constructor.
  - intros k. apply fm_get_put.
  - rewrite fm_keys_put. destruct (fm_get (fold_left fm_op ops []) l) eqn:E; destruct (in_dec Nat.eq_dec l (map fst (fold_left fm_op ops []))) as [I|N]; auto.
    + apply fm_get_in in N. congruence. + apply fm_get_in in E. contradiction.
Qed.
Print Assumptions C15_plan.
Print Assumptions C15_spec_meaning.
Definition ex_ops : list plan_op := [Ins 1 4%Z; Clr; Ins 1 5%Z; Ins 0 7%Z; Ins 1 6%Z].
Example C15_example : fm_run ex_ops = [(1, 6%Z); (0, 7%Z)] /\
  (g <- ex_g ;; p0 <- plan_new g 9 ;; p <- foldM (do_op g) ex_ops p0 ;; Some (pl_sending p, plan_get g p 1, plan_get g p 2))
   = Some ([2; 1], Some 7%Z, Some 6%Z).
Proof. vm_compute. auto. Qed.
(** inserting the destination -1 leaves the vertex unplanned but counted in size() *)
Theorem C15_minus_one_refuted : exists g p0 p, ex_g = Some g /\ plan_new g 9 = Some p0 /\ do_op g p0 (Ins 0 (-1)%Z) = Some p /\
  plan_size p = 1 /\ plan_has g p (getVertex 0) = Some false.
Proof. vm_compute. repeat econstructor. Qed.
