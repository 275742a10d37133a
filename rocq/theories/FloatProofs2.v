(** getWeight in doubles and in rationals: both add the same weights in the same order. *)
From Coq Require Import Reals Lra Psatz Qreals.
From Flocq Require Import Core BinarySingleNaN.
From Verif Require Import Base GraphModel Comm TagModel ConnModel MetricsModel.
From Verif Require Import FloatModel FloatSpec FloatProofs.
Local Open Scope R_scope.

(** the name of the weight read *)
Definition wname (g : graph) (gw : option (arr Z)) (h : nat) : option Z :=
  l <- vlid h ;; if (l <? nlv g)%nat then vweight g h else tag <- gw ;; get_vtag g tag h.
Lemma wname_stored g gw h x : wname g gw h = Some x -> stored_weight g gw x.
Proof.
  unfold wname. destruct (vlid h) as [l|]; cbn [obind]; [|discriminate]. exists h. destruct (Nat.ltb l (nlv g)); [auto|]. destruct gw as [tag|]; cbn [obind] in H; [|discriminate]. right. right. eauto.
Qed.
Lemma wname_q val g gw h : weight_of val g gw h = option_map val (wname g gw h).
Proof. unfold weight_of, wname. destruct (vlid h); cbn [obind option_map]; auto. destruct (Nat.ltb _ _); [try (destruct (vweight g h); reflexivity)|]. destruct gw; cbn [obind option_map]; auto; destruct (get_vtag _ _ _); reflexivity. Qed.
Lemma wname_f fv g gw h : weight_of_f fv g gw h = option_map fv (wname g gw h).
Proof. unfold weight_of_f, wname. destruct (vlid h); cbn [obind option_map]; auto. destruct (Nat.ltb _ _); [try (destruct (vweight g h); reflexivity)|]. destruct gw; cbn [obind option_map]; auto; destruct (get_vtag _ _ _); reflexivity. Qed.

Lemma fold_names {A B} (nm : nat -> option Z) (f : nat -> option B) (v : Z -> B) (op : A -> B -> A) vs (w : A) : (forall h, f h = option_map v (nm h)) ->
  foldM (fun w h => x <- f h ;; Some (op w x)) vs w = option_map (fun ns => fold_left op (map v ns) w) (mapM nm vs).
Proof.
  intros H. revert w. induction vs as [|h vs IH]; intros w; cbn [foldM mapM option_map map fold_left]; auto. rewrite H. destruct (nm h) as [x|]; cbn [obind option_map]; auto.
  rewrite IH. destruct (mapM nm vs); cbn [obind option_map map fold_left]; auto.
Qed.
(** the names of the weights added *)
Definition wnames (g : graph) (gw : option (arr Z)) (dim : option nat) (cg : bool) (fuel : nat) : option (list Z) :=
  match dim with
  | None => vs <- all_verts g fuel ;; a <- mapM (wname g gw) vs ;; if cg then gs <- all_ghosts g fuel ;; b <- mapM (wname g gw) gs ;; Some (a ++ b) else Some a
  | Some t => es <- all_edges g t fuel ;; mapM (eweight g) es
  end.
Lemma getWeight_names val g gw dim cg fuel : getWeight val g gw dim cg fuel = option_map (fun ns => fold_left Qplus (map val ns) 0%Q) (wnames g gw dim cg fuel).
Proof.
  destruct dim as [t|]; cbn [getWeight wnames].
  - destruct (all_edges g t fuel) as [es|]; cbn [obind option_map]; auto. rewrite <- (fold_names (eweight g) (fun h => x <- eweight g h ;; Some (val x)) val Qplus).
    + apply (f_equal (fun f => foldM f es 0%Q)). apply FunctionalExtensionality.functional_extensionality. intros w. apply FunctionalExtensionality.functional_extensionality. intros e. destruct (eweight g e); reflexivity.
    + intros h. destruct (eweight g h); reflexivity.
  - destruct (all_verts g fuel) as [vs|]; cbn [obind option_map]; auto. rewrite (fold_names (wname g gw) _ val Qplus) by apply wname_q. destruct (mapM (wname g gw) vs) as [a|]; cbn [obind option_map]; auto.
    destruct cg; [|reflexivity]. destruct (all_ghosts g fuel) as [gs|]; cbn [obind option_map]; auto. rewrite (fold_names (wname g gw) _ val Qplus) by apply wname_q.
    destruct (mapM (wname g gw) gs); cbn [obind option_map]; auto. now rewrite map_app, fold_left_app.
Qed.
Lemma getWeight_f_names fv g gw dim cg fuel : getWeight_f fv g gw dim cg fuel = option_map (fun ns => fsum (map fv ns)) (wnames g gw dim cg fuel).
Proof.
  destruct dim as [t|]; cbn [getWeight_f wnames].
  - destruct (all_edges g t fuel) as [es|]; cbn [obind option_map]; auto. unfold fsum. rewrite <- (fold_names (eweight g) (fun h => x <- eweight g h ;; Some (fv x)) fv fadd).
    + apply (f_equal (fun f => foldM f es f0)). apply FunctionalExtensionality.functional_extensionality. intros w. apply FunctionalExtensionality.functional_extensionality. intros e. destruct (eweight g e); reflexivity.
    + intros h. destruct (eweight g h); reflexivity.
  - destruct (all_verts g fuel) as [vs|]; cbn [obind option_map]; auto. rewrite (fold_names (wname g gw) _ fv fadd) by apply wname_f. destruct (mapM (wname g gw) vs) as [a|]; cbn [obind option_map]; auto.
    destruct cg; [|reflexivity]. destruct (all_ghosts g fuel) as [gs|]; cbn [obind option_map]; auto. rewrite (fold_names (wname g gw) _ fv fadd) by apply wname_f.
    destruct (mapM (wname g gw) gs); cbn [obind option_map]; auto. unfold fsum. now rewrite map_app, fold_left_app.
Qed.
Lemma mapM_in {X Y} (f : X -> option Y) l r y : mapM f l = Some r -> In y r -> exists x, In x l /\ f x = Some y.
Proof.
  revert r. induction l as [|x l IH]; cbn [mapM]; intros r H I; [inversion H; subst; destruct I|]. destruct (f x) as [z|] eqn:E; cbn [obind] in H; [|discriminate]. destruct (mapM f l) as [r'|]; cbn [obind] in H; [|discriminate].
  inversion H; subst. destruct I as [<-|I]; [exists x; split; [now left|auto]|]. destruct (IH r' eq_refl I) as (w & W & E'). exists w. split; [now right|auto].
Qed.
Lemma mapM_len {X Y} (f : X -> option Y) l r : mapM f l = Some r -> length r = length l.
Proof. revert r. induction l as [|x l IH]; cbn [mapM]; intros r H; [now inversion H|]. destruct (f x); cbn [obind] in H; [|discriminate]. destruct (mapM f l); cbn [obind] in H; [|discriminate]. inversion H; subst. cbn. f_equal. auto. Qed.
Lemma wnames_stored g gw dim cg fuel ns x : wnames g gw dim cg fuel = Some ns -> In x ns -> stored_weight g gw x.
Proof.
  destruct dim as [t|]; cbn [wnames]; intros H I.
  - destruct (all_edges g t fuel) as [es|]; cbn [obind] in H; [|discriminate]. destruct (mapM_in _ _ _ _ H I) as (e & _ & E). exists e. auto.
  - destruct (all_verts g fuel) as [vs|]; cbn [obind] in H; [|discriminate]. destruct (mapM (wname g gw) vs) as [a|] eqn:Ea; cbn [obind] in H; [|discriminate].
    destruct cg; [|inversion H; subst; destruct (mapM_in _ _ _ _ Ea I) as (h & _ & E); eapply wname_stored; eauto].
    destruct (all_ghosts g fuel) as [gs|]; cbn [obind] in H; [|discriminate]. destruct (mapM (wname g gw) gs) as [b|] eqn:Eb; cbn [obind] in H; [|discriminate]. inversion H; subst.
    apply in_app_iff in I. destruct I as [I|I]; [destruct (mapM_in _ _ _ _ Ea I) as (h & _ & E)|destruct (mapM_in _ _ _ _ Eb I) as (h & _ & E)]; eapply wname_stored; eauto.
Qed.
Lemma wnames_count g gw dim cg fuel ns : wnames g gw dim cg fuel = Some ns -> weight_count g dim cg fuel = Some (length ns).
Proof.
  destruct dim as [t|]; cbn [wnames weight_count]; intros H.
  - destruct (all_edges g t fuel) as [es|]; cbn [obind] in H |- *; [|discriminate]. f_equal. symmetry. eapply mapM_len; eauto.
  - destruct (all_verts g fuel) as [vs|]; cbn [obind] in H |- *; [|discriminate]. destruct (mapM (wname g gw) vs) as [a|] eqn:Ea; cbn [obind] in H; [|discriminate]. apply mapM_len in Ea.
    destruct cg; [|inversion H; subst; now rewrite Ea].
    destruct (all_ghosts g fuel) as [gs|]; cbn [obind] in H |- *; [|discriminate]. destruct (mapM (wname g gw) gs) as [b|] eqn:Eb; cbn [obind] in H; [|discriminate]. apply mapM_len in Eb. inversion H; subst. now rewrite app_length, Ea, Eb.
Qed.

Lemma qfold l w : Q2R (fold_left Qplus l w) = Q2R w + rsum (map Q2R l).
Proof. revert w. induction l as [|x l IH]; intros w; cbn [fold_left map rsum fold_right]; [lra|]. rewrite IH, Q2R_plus. unfold rsum. lra. Qed.
Lemma Q2R_Z n : Q2R (inject_Z n) = IZR n. Proof. unfold Q2R, inject_Z. cbn. field. Qed.
Lemma rsum_z l : rsum (map IZR l) = IZR (zsum l).
Proof. unfold rsum, zsum. induction l as [|x l IH]; cbn [map fold_right]; auto. now rewrite IH, plus_IZR. Qed.
