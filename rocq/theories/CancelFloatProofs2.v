(** The loop of cancel: after any prefix of the plan the sets hold exactly the edges the kept vertices bring. *)
From Coq Require Import Reals Lra.
From Flocq Require Import Core BinarySingleNaN.
From Verif Require Import Base GraphModel Comm TagModel SelectorModel SelectorProofs.
From Verif Require Import FloatModel FloatSpec FloatProofs FloatProofs2 FloatProofs3 FloatProofs4.
From Verif Require Import CancelFloatModel CancelFloatSpec CancelFloatProofs.
Local Open Scope nat_scope.

Lemma obind_some {A B} (x : option A) (f : A -> option B) y : obind x f = Some y -> exists a, x = Some a /\ f a = Some y.
Proof. destruct x as [a|]; cbn [obind]; [eauto|discriminate]. Qed.
Section Loop.
Variables (fv : Z -> b64) (ord : list nat -> list nat) (g : graph) (gw : option (arr Z)) (fuel : nat).
Hypothesis Hord : forall l, Permutation (ord l) l.

Lemma set_weight_names S w : set_weight_f fv ord g S = Some w -> exists ws, edge_weights fv g (ord S) ws /\ w = fsum ws.
Proof.
  unfold set_weight_f. intros H. change (fun w e => x <- eweight g e ;; Some (fadd w (fv x))) with (fun w e => x <- eweight g e ;; Some (fadd w (fv x))) in H.
  assert (G : forall l w0, foldM (fun w e => x <- eweight g e ;; Some (fadd w (fv x))) l w0 = Some w -> exists ws, edge_weights fv g l ws /\ w = fold_left fadd ws w0).
  { induction l as [|e l IH]; intros w0 E; cbn [foldM] in E; [inversion E; exists []; split; [constructor|reflexivity]|]. destruct (eweight g e) as [x|] eqn:Ex; cbn [obind] in E; [|discriminate].
    destruct (IH _ E) as (ws & A & B). exists (fv x :: ws). split; [constructor; eauto|exact B]. }
  destruct (G _ _ H) as (ws & A & B). exists ws. auto.
Qed.
Lemma temp_inv v d t S tmp : temp_interior g fuel v d t S = Some tmp ->
  exists es, vertex_edges g v t fuel = Some es /\ NoDup tmp /\ forall e, In e tmp <-> In e es /\ ~ In e S /\ isResidentOn g e d = Some false.
Proof.
  unfold temp_interior. intros H. destruct (obind_some _ _ _ H) as (es & E & H1). exists es. split; auto. clear H E.
  assert (G : forall l a r, foldM (fun s e => if smem S e then Some s else r <- isResidentOn g e d ;; Some (if r then s else sadd s e)) l a = Some r ->
    (NoDup a -> NoDup r) /\ forall e, In e r <-> In e a \/ (In e l /\ ~ In e S /\ isResidentOn g e d = Some false)).
  { induction l as [|x l IH]; intros a r F; cbn [foldM] in F; [inversion F; subst; split; auto; intros e; cbn; tauto|].
    destruct (smem S x) eqn:Es; cbn [obind] in F.
    - destruct (IH _ _ F) as (N & I). split; auto. intros e. rewrite I. apply smem_in in Es. cbn [In]. split; [tauto|]. intros [A|([->|A] & B & C)]; [auto|contradiction|auto].
    - destruct (isResidentOn g x d) as [rx|] eqn:Er; cbn [obind] in F; [|discriminate]. destruct (IH _ _ F) as (N & I). apply smem_no in Es. destruct rx.
      + split; auto. intros e. rewrite I. cbn [In]. split; [tauto|]. intros [A|([->|A] & B & C)]; [auto|congruence|auto].
      + split; [intros A; apply N, sadd_nodup, A|]. intros e. rewrite I, sadd_in. cbn [In]. split; [intros [[A| ->]|A]; tauto|]. intros [A|([->|A] & B & C)]; auto. }
  destruct (G _ _ _ H1) as (N & I). split; [apply N; constructor|]. intros e. rewrite I. cbn. tauto.
Qed.
Lemma brought_app t d K v d' e : brought g fuel t d (K ++ [(v, d')]) e <-> brought g fuel t d K e \/ (d' = d /\ exists es, vertex_edges g v t fuel = Some es /\ In e es /\ isResidentOn g e d = Some false).
Proof.
  unfold brought. split.
  - intros (v0 & es & I & A & B & C). apply in_app_iff in I as [I|[I|[]]]; [left; eauto 6|]. inversion I; subst. right. eauto.
  - intros [(v0 & es & I & A & B & C)|(-> & es & A & B & C)]; [exists v0, es; rewrite in_app_iff; auto|exists v, es; rewrite in_app_iff; cbn; auto].
Qed.
Lemma vertex_app d K v d' ws : vertex_weights fv g gw d K ws -> d' <> d -> vertex_weights fv g gw d (K ++ [(v, d')]) ws.
Proof. unfold vertex_weights. intros H N. rewrite filter_app. cbn [filter snd]. rewrite (proj2 (Z.eqb_neq d' d) N), app_nil_r. exact H. Qed.
Lemma vertex_app1 d K v ws w : vertex_weights fv g gw d K ws -> weight_of_f fv g gw v = Some w -> vertex_weights fv g gw d (K ++ [(v, d)]) (ws ++ [w]).
Proof. unfold vertex_weights. intros H N. rewrite filter_app. cbn [filter snd]. rewrite Z.eqb_refl. apply Forall2_app; auto. Qed.

(** what the test of one dimension compared *)
Definition edges_cmp (t : nat) (d : Z) (c : b64) (K : list (nat * Z)) (over : bool) : Prop :=
  exists L a b, brought_edges g fuel t d K L /\ edge_weights fv g L (a ++ b) /\ flt c (fadd (fsum a) (fsum b)) = over.
Definition verts_cmp (d : Z) (c : b64) (K : list (nat * Z)) (over : bool) : Prop :=
  exists ws, vertex_weights fv g gw d K ws /\ flt c (fsum ws) = over.
Lemma dim_edges v d vw t c S K fit S' : cancel_dim_f fv ord g gw fuel v d vw (Some t, c, S) = Some (fit, S') -> brought_edges g fuel t d K S ->
  brought_edges g fuel t d (K ++ [(v, d)]) S' /\ edges_cmp t d c (K ++ [(v, d)]) (negb fit).
Proof.
  unfold cancel_dim_f. cbn [fst snd]. intros H (N & I). destruct (obind_some _ _ _ H) as (tmp & Et & H1). destruct (obind_some _ _ _ H1) as (a & Ea & H2). destruct (obind_some _ _ _ H2) as (b & Eb & H3). inversion H3; subst. clear H H1 H2 H3.
  destruct (temp_inv _ _ _ _ _ Et) as (es & Ee & Nt & It). destruct (set_weight_names _ _ Ea) as (wa & Wa & ->). destruct (set_weight_names _ _ Eb) as (wb & Wb & ->).
  assert (Po : forall l x, In x (ord l) <-> In x l) by (intros l x; split; apply Permutation_in; [apply Hord|apply Permutation_sym, Hord]).
  assert (M : forall e, In e S \/ In e tmp <-> brought g fuel t d (K ++ [(v, d)]) e).
  { intros e. rewrite brought_app, It, I. split; [intros [A|(A & _ & B)]; [auto|right; eauto]|]. intros [A|(_ & es' & A & B & C)]; [auto|]. assert (es' = es) by congruence. subst es'.
    destruct (in_dec Nat.eq_dec e S) as [D|D]; [left; now apply I|right]. split; auto. split; auto. now rewrite <- I. }
  split.
  - fold (addall S (ord tmp)). split; [apply addall_nodup, N|]. intros e. rewrite addall_in, Po. apply M.
  - exists (ord S ++ ord tmp), wa, wb. split; [|split; [apply Forall2_app; auto|now rewrite negb_involutive]]. split.
    + apply NoDup_app_iff. split; [eapply Permutation_NoDup; [apply Permutation_sym, Hord|exact N]|]. split; [eapply Permutation_NoDup; [apply Permutation_sym, Hord|exact Nt]|].
      intros x A B. apply (proj1 (Po S x)) in A. apply (proj1 (Po tmp x)) in B. apply It in B. tauto.
    + intros e. rewrite in_app_iff, !Po. apply M.
Qed.

(** ** the loop *)
Variables (dims : list (option nat)) (cap : Z -> list b64).
Hypothesis Hcap : forall d, Forall ok (cap d).
Hypothesis Hone : vertices_once dims.
Lemma weight_none v l vw vw' : (forall i, nth_error l i <> Some None) -> foldM (cancel_weight_f fv g gw v) l vw = Some vw' -> vw' = vw.
Proof.
  revert vw. induction l as [|x l IH]; intros vw H E; cbn [foldM] in E; [now inversion E|]. destruct x as [t|]; [|exfalso; exact (H 0 eq_refl)]. cbn [cancel_weight_f obind] in E. apply (IH vw); auto. intros i. exact (H (S i)).
Qed.
Lemma weight_once v l i vw vw' : vertices_once l -> nth_error l i = Some None -> foldM (cancel_weight_f fv g gw v) l vw = Some vw' -> exists w, weight_of_f fv g gw v = Some w /\ vw' = fadd vw w.
Proof.
  revert i vw. induction l as [|x l IH]; intros i vw O Hi E; [destruct i; discriminate|]. cbn [foldM] in E. destruct x as [t|].
  - cbn [cancel_weight_f obind] in E. destruct i as [|i]; [discriminate|]. apply (IH i vw); auto. intros a b Ha Hb. specialize (O (S a) (S b) Ha Hb). lia.
  - cbn [cancel_weight_f] in E. destruct (weight_of_f fv g gw v) as [w|]; cbn [obind] in E; [|discriminate]. exists w. split; auto. apply (weight_none v l); auto. intros j Hj. specialize (O 0 (S j) eq_refl Hj). discriminate.
Qed.
Record inv (s : cstate) (K : list (nat * Z)) : Prop := {
  i_len : forall d, length (fst (s d)) = length dims;
  i_set : forall d i t S, nth_error dims i = Some (Some t) -> nth_error (fst (s d)) i = Some S -> brought_edges g fuel t d K S;
  i_edg : forall d i t c, nth_error dims i = Some (Some t) -> nth_error (cap d) i = Some c -> edges_cmp t d c K false;
  i_vw : forall d i, nth_error dims i = Some None -> exists ws, vertex_weights fv g gw d K ws /\ snd (s d) = fsum ws;
  i_vrt : forall d i c, nth_error dims i = Some None -> nth_error (cap d) i = Some c -> verts_cmp d c K false }.
Lemma zero_fits d i c : nth_error (cap d) i = Some c -> flt c f0 = false.
Proof. intros H. pose proof (proj1 (Forall_forall _ _) (Hcap d) c (nth_error_In _ _ H)) as (F & P). rewrite (flt_ok c f0 F eq_refl), value_f0. apply Rlt_bool_false. exact P. Qed.
Lemma inv0 : inv (fun _ => (map (fun _ => []) dims, f0)) [].
Proof.
  assert (B : forall t d, brought_edges g fuel t d [] []) by (intros t d; split; [constructor|]; intros e; split; [intros []|intros (v & es & [] & _)]).
  split.
  - intros d. cbn [fst]. apply map_length.
  - intros d i t S _ H. cbn [fst] in H. rewrite nth_error_map in H. destruct (nth_error dims i); inversion H. apply B.
  - intros d i t c _ H. exists [], [], []. split; [apply B|]. split; [constructor|]. change (fadd (fsum []) (fsum [])) with f0. eapply zero_fits; eauto.
  - intros d i _. exists []. split; [constructor|reflexivity].
  - intros d i c _ H. exists []. split; [constructor|]. eapply zero_fits; eauto.
Qed.
(** a vertex that does not stay exceeds a capacity *)
Definition over (K : list (nat * Z)) (d : Z) : Prop :=
  exists i c, nth_error (cap d) i = Some c /\ ((exists t, nth_error dims i = Some (Some t) /\ edges_cmp t d c K true) \/ (nth_error dims i = Some None /\ verts_cmp d c K true)).
Lemma edges_cmp_other t d d' c K v o : d' <> d -> edges_cmp t d c K o -> edges_cmp t d c (K ++ [(v, d')]) o.
Proof.
  intros N (L & a & b & (ND & I) & A & B). exists L, a, b. split; auto. split; auto. intros e. rewrite brought_app, I. split; [auto|]. intros [X|(X & _)]; [auto|congruence].
Qed.
Lemma step s K v d s' K' : inv s K -> cancel_step_f fv ord g gw fuel dims cap (s, K) (v, d) = Some (s', K') ->
  (K' = K ++ [(v, d)] /\ inv s' K') \/ (K' = K /\ s' = s /\ over (K ++ [(v, d)]) d).
Proof.
  intros [I1 I2 I3 I4 I5] H. cbn [cancel_step_f] in H. destruct (length (cap d) =? length dims) eqn:Lc; [|discriminate]. apply Nat.eqb_eq in Lc. destruct (obind_some _ _ _ H) as (r & Er & H1). clear H.
  assert (Lr : length r = length dims). { rewrite (mapM_length _ _ _ _ _ Er), !combine_length, I1. lia. }
  assert (Nr : forall i dm c S, nth_error dims i = Some dm -> nth_error (cap d) i = Some c -> nth_error (fst (s d)) i = Some S -> exists y, nth_error r i = Some y /\ cancel_dim_f fv ord g gw fuel v d (snd (s d)) (dm, c, S) = Some y).
  { intros i dm c S E1 E2 E3. apply (mapM_nth _ _ _ _ _ _ _ Er).
    assert (C : forall A B (l : list A) (l' : list B) i a b, nth_error l i = Some a -> nth_error l' i = Some b -> nth_error (combine l l') i = Some (a, b)).
    { clear. intros A B. induction l as [|x l IH]; intros [|y l'] [|i]; cbn; intros a b H1 H2; try discriminate; [congruence|now apply IH]. }
    apply C; auto. }
  assert (Get : forall (A : Type) (l : list A) i, length l = length dims -> i < length dims -> exists x, nth_error l i = Some x).
  { intros A l i Hl Hi. destruct (nth_error l i) eqn:E; eauto. apply nth_error_None in E. lia. }
  assert (Fit : forall i y, nth_error r i = Some y -> exists dm c S, nth_error dims i = Some dm /\ nth_error (cap d) i = Some c /\ nth_error (fst (s d)) i = Some S /\ cancel_dim_f fv ord g gw fuel v d (snd (s d)) (dm, c, S) = Some y).
  { intros i y Hy. assert (Li : i < length dims) by (rewrite <- Lr; apply nth_error_Some; congruence). destruct (Get _ dims i eq_refl Li) as (dm & E1). destruct (Get _ (cap d) i Lc Li) as (c & E2). destruct (Get _ (fst (s d)) i (I1 d) Li) as (S & E3).
    destruct (Nr i dm c S E1 E2 E3) as (y' & E4 & E5). assert (y' = y) by congruence. subst. exists dm, c, S. auto. }
  (* the comparison of a vertex dimension *)
  assert (Vt : forall i c fit S S', nth_error dims i = Some None -> cancel_dim_f fv ord g gw fuel v d (snd (s d)) (None, c, S) = Some (fit, S') -> verts_cmp d c (K ++ [(v, d)]) (negb fit)).
  { intros i c fit S S' Hi E. unfold cancel_dim_f in E. cbn [fst snd] in E. destruct (obind_some _ _ _ E) as (w & Ew & E1). inversion E1; subst. destruct (I4 d i Hi) as (ws & Wv & Es). exists (ws ++ [w]). split; [now apply vertex_app1|]. now rewrite <- vertex_sum, <- Es, negb_involutive. }
  destruct (forallb fst r) eqn:Fr.
  - left. destruct (obind_some _ _ _ H1) as (vw & Ev & H2). inversion H2; subst s' K'. clear H1 H2. split; auto. rewrite forallb_forall in Fr.
    assert (Ok : forall i fit S', nth_error r i = Some (fit, S') -> fit = true) by (intros i fit S' Hi; exact (Fr _ (nth_error_In _ _ Hi))).
    split.
    + intros d0. destruct (Z.eqb_spec d0 d) as [->|Ne]; [cbn [fst]; now rewrite map_length|apply I1].
    + intros d0 i t S Hi HS. destruct (Z.eqb_spec d0 d) as [->|Ne].
      * cbn [fst] in HS. rewrite nth_error_map in HS. destruct (nth_error r i) as [(fit, S')|] eqn:Ei; inversion HS; subst. destruct (Fit _ _ Ei) as (dm & c & S0 & E1 & E2 & E3 & E4). assert (dm = Some t) by congruence. subst dm. apply (dim_edges _ _ _ _ _ _ K _ _ E4). eapply I2; eauto.
      * destruct (I2 d0 i t S Hi HS) as (ND & J). split; auto. intros e. rewrite brought_app, J. split; [auto|]. intros [X|(X & _)]; [auto|congruence].
    + intros d0 i t c Hi Hc. destruct (Z.eq_dec d0 d) as [->|Ne]; [|apply edges_cmp_other; [congruence|eauto]].
      assert (Li : i < length dims) by (apply nth_error_Some; congruence). destruct (Get _ (fst (s d)) i (I1 d) Li) as (S & E3). destruct (Nr i _ c S Hi Hc E3) as ((fit, S') & E4 & E5).
      rewrite (Ok _ _ _ E4) in E5. destruct (dim_edges _ _ _ _ _ _ K _ _ E5 (I2 _ _ _ _ Hi E3)) as (_ & X). exact X.
    + intros d0 i Hi. destruct (Z.eqb_spec d0 d) as [->|Ne].
      * cbn [snd]. destruct (weight_once v dims i _ _ Hone Hi Ev) as (w & Ew & ->). destruct (I4 d i Hi) as (ws & Wv & ->). exists (ws ++ [w]). split; [now apply vertex_app1|apply vertex_sum].
      * destruct (I4 d0 i Hi) as (ws & Wv & Es). exists ws. split; [apply vertex_app; auto|exact Es].
    + intros d0 i c Hi Hc. destruct (Z.eq_dec d0 d) as [->|Ne].
      * assert (Li : i < length dims) by (apply nth_error_Some; congruence). destruct (Get _ (fst (s d)) i (I1 d) Li) as (S & E3). destruct (Nr i _ c S Hi Hc E3) as ((fit, S') & E4 & E5).
        rewrite (Ok _ _ _ E4) in E5. exact (Vt i c _ _ _ Hi E5).
      * destruct (I5 d0 i c Hi Hc) as (ws & Wv & Ec). exists ws. split; [apply vertex_app; auto|exact Ec].
  - right. inversion H1; subst s' K'. split; auto. split; auto. assert (X : exists y, In y r /\ fst y = false).
    { clear - Fr. induction r as [|y r IH]; [discriminate|]. cbn [forallb] in Fr. destruct (fst y) eqn:Ey; [destruct IH as (z & A & B); [exact Fr|exists z; split; [now right|auto]]|exists y; split; [now left|auto]]. }
    destruct X as ((fit, S') & Iy & Fy). cbn [fst] in Fy. subst fit. apply In_nth_error in Iy as (i & Ei). destruct (Fit _ _ Ei) as (dm & c & S & E1 & E2 & E3 & E4). exists i, c. split; auto. destruct dm as [t|].
    + left. exists t. split; auto. destruct (dim_edges _ _ _ _ _ _ K _ _ E4 (I2 _ _ _ _ E1 E3)) as (_ & X). exact X.
    + right. split; auto. exact (Vt i c _ _ _ E1 E4).
Qed.
Lemma loop plan : forall s K s' K', inv s K -> foldM (cancel_step_f fv ord g gw fuel dims cap) plan (s, K) = Some (s', K') -> inv s' K' /\ exists l, K' = K ++ l /\ sub l plan.
Proof.
  induction plan as [|(v, d) plan IH]; intros s K s' K' HI E; cbn [foldM] in E; [inversion E; subst; split; auto; exists []; rewrite app_nil_r; split; auto; constructor|].
  destruct (obind_some _ _ _ E) as ((s1, K1) & E1 & E2). destruct (step _ _ _ _ _ _ HI E1) as [(-> & I1)|(-> & -> & _)].
  - destruct (IH _ _ _ _ I1 E2) as (I' & l & -> & Sb). split; auto. exists ((v, d) :: l). rewrite <- app_assoc. split; [reflexivity|now constructor].
  - destruct (IH _ _ _ _ HI E2) as (I' & l & -> & Sb). split; auto. exists l. split; [reflexivity|now constructor].
Qed.
End Loop.
