(** C58: weight diffusion (WeightBalancer, WeightSelector). *)
From Verif Require Import Base GraphModel GraphSpec CsrProofs ConstructProofs AccessProofs GraphTop GraphTop2 Comm TagModel TagProps MetricsModel MetricsProps SdModel QueueModel MigrateModel MigrateSpec SelectorModel WeightMigModel WeightMigProps BalanceProps WBalModel WBalProofs1 WBalProofs2 WBalSpec WBalProofs3 WBalProofs4 WBalProofs5.
From Coq Require Import Lqa Qround.
Local Open Scope nat_scope.

(** The plan of one part, read back with the plan's iterator, for any targets and any order of the pins: it names owned sources and
    ghosts of target parts, a source never plans to send more than its weight, a target part is never sent more than its target. *)
Theorem C58_plan : forall D ord fuel me p g es ews targets, (forall c, Permutation (ord c) c) ->
  valid_input true (in_verts p) (in_vws p) (in_tys p) -> build_part me true (in_verts p) (in_vws p) (in_tys p) (in_owns p) = Some g ->
  nth_error (in_tys p) 0 = Some (es, ews) -> length es < fuel -> 10 * nsum (map (fun e => length (snd e)) es) < fuel ->
  (forall e, In e es -> exists v, In v (snd e) /\ In v (in_verts p)) ->
  (forall v, In v (ghosts_of (in_verts p) (in_tys p)) -> part_of me (in_verts p) (in_owns p) v <> me) ->
  (forall z, In z (in_vws p) -> (0 <= z)%Z) ->
  exists plan l, weight_plan D ord g fuel targets = Some plan /\ wi_run fuel (wi_begin (wm_sending plan)) = Some l /\
    (forall v u x, In (v, u, x) l -> (exists a, vgid g v = Some a /\ In a (in_verts p)) /\ (exists b o, vgid g u = Some b /\ ~ In b (in_verts p) /\ owner g u = Some o /\ chas targets o = true)) /\
    (forall P : nat -> nat -> bool, (0 <= sumf (fun x => if P (fst (fst x)) (snd (fst x)) then snd x else 0) l)%Z) /\
    (forall v a w, vgid g v = Some a -> In a (in_verts p) -> vweight g v = Some w -> (sumf (fun x => if Nat.eqb (fst (fst x)) v then snd x else 0) l <= w)%Z) /\
    (forall o, let s := sumf (fun x => if match owner g (snd (fst x)) with Some q => Z.eqb q o | None => false end then snd x else 0%Z) l in s = 0%Z \/ (units D s <= cget 0%Q targets o)%Q).
Proof.
  intros D ord fuel me p g es ews targets Hord HV HB Ht HF HF2 Hmine Hgh Hws.
  assert (HFp : forall e, In e es -> length (snd e) < fuel). { intros e He. enough (length (snd e) <= nsum (map (fun e => length (snd e)) es)) by lia. clear - He. unfold nsum. induction es as [|a l IH]; [destruct He|]. cbn. destruct He as [->|He]; [lia|]. specialize (IH He). lia. }
  destruct (hyper_plan D ord fuel me p g es ews targets Hord HV HB Ht HF HFp Hmine Hgh Hws) as (plan & cs & E & Ep & A & B & C & F). subst plan.
  destruct (C56_iterator (map hcall cs) fuel ltac:(rewrite map_length; lia)) as (l & El & IN & SUM). exists (wm_made (map hcall cs)), l. split; auto. split; auto.
  assert (OWN : forall k, k < length (in_verts p ++ ghosts_of (in_verts p) (in_tys p)) -> vgid g (getVertex k) = Some (gid_of p k) /\ owner g (getVertex k) = Some (home me p k)).
  { intros k Lk. split; [|apply (p_owner _ _ _ _ _ _ _ HV HB k (gid_of p k)); now apply gid_nth].
    apply (c_vgid _ _ _ _ _ _ (p_constructed _ _ _ _ _ _ _ HV HB)). now apply gid_nth. }
  split; [|split; [|split]].
  - intros v u x I. destruct (IN v u x I) as (w' & I'). apply in_map_iff in I' as ([[a b] y] & Eh & I'). unfold hcall in Eh. cbn [fst snd] in Eh. inversion Eh; subst. destruct (A _ I') as (L1 & (L2 & L3) & CH & _). cbn [fst snd] in *.
    split.
    + destruct (OWN a) as (-> & _); [rewrite app_length; lia|]. eexists. split; [reflexivity|]. now apply gid_local.
    + destruct (OWN b L3) as (-> & ->). exists (gid_of p b), (home me p b). split; auto. split; auto. intros Hin. assert (home me p b = me) by (unfold home, part_of; destruct (in_dec Z.eq_dec (gid_of p b) (in_verts p)); tauto). apply (Hgh (gid_of p b)); auto.
      unfold gid_of. rewrite app_nth2 by auto. apply nth_In. rewrite app_length in L3. lia.
  - intros P. rewrite (SUM P), sumf_map. apply sumf_le0. intros c Hc. destruct (A c Hc) as (_ & _ & _ & x & X & EX). unfold hcall. cbn [fst snd]. rewrite EX. destruct (P _ _); nia.
  - intros v a w Hv Ha Hw. rewrite (SUM (fun x _ => Nat.eqb x v)), sumf_map. destruct v as [|k]; [discriminate|]. unfold hcall, getVertex. cbn [fst snd].
    rewrite (sumf_ext _ _ (fun c => if Nat.eqb (fst (fst c)) k then snd c else 0%Z)) by (intros c _; rewrite Nat.add_1_r; reflexivity). fold (sent_by cs k).
    destruct (Nat.lt_ge_cases k (length (in_verts p))) as [L|G].
    + pose proof (vweight_old _ _ _ _ k HV HB L) as X. unfold getVertex in X. rewrite Nat.add_1_r in X. assert (w = wold p k) by congruence. subst w. auto.
    + unfold vweight in Hw. cbn [vlid obind] in Hw. destruct (part_rep _ _ _ _ _ _ _ HV HB) as (R & _). rewrite (rp_nlv _ _ _ _ _ R) in Hw. destruct (Nat.ltb_spec k (length (in_verts p))); [lia|discriminate].
  - intros o s. destruct (C o) as (_ & X). replace s with (sent_to (home me p) cs o); auto. unfold s. rewrite (SUM (fun _ u => match owner g u with Some q => Z.eqb q o | None => false end)), sumf_map. unfold sent_to. apply sumf_ext. intros c Hc. destruct (A c Hc) as (_ & (_ & L3) & _). cbn [hcall fst snd]. destruct (OWN _ L3) as (_ & ->). reflexivity.
Qed.
Print Assumptions C58_plan.

(** One step never fails, whatever the order of the messages and of the sets: it stops because every part weighs less than the tolerance
    times the average, or because of stagnation, or because nothing can be sent (and then changes nothing), or it carries out transfers as
    described by [diffused]: the total weight stays, and every part changes by what it received minus what it sent. *)
Theorem C58_step : forall val D fuel inp sideTol s ps w, diffusible val fuel (w_type inp) ps -> (0 < all_total ps)%Z -> placed ps w -> sd_reach s ->
  wb_step val D fuel inp sideTol s w (fun rc s' w' => sd_reach s' /\
    ((rc = 1%Z /\ w' = w /\ forall p, In p ps -> (units D (part_total p) < w_tol inp * (units D (all_total ps) / inject_Z (Z.of_nat (length ps))))%Q) \/
     ((rc = 2%Z \/ rc = 3%Z) /\ w' = w) \/
     (rc = 0%Z /\ exists ps' ts, same_but_weights ps ps' /\ placed ps' w' /\ diffusible val fuel (w_type inp) ps' /\ diffused D (w_step inp) ps ps' ts /\ flow_follows ps ts w w' /\
        all_total ps' = all_total ps /\ forall r p p', nth_error ps r = Some p -> nth_error ps' r = Some p' ->
          part_total p' = (part_total p - carried ts (is_in (in_verts p)) any + carried ts any (is_in (in_verts p)))%Z))).
Proof.
  intros val D fuel inp sideTol s ps w DF POS HP HR. eapply step_mono; [|apply (step_done val D fuel inp ps DF POS sideTol s w HP HR)].
  intros rc s' w' (R & H). split; auto. destruct H as [(A & B & C)|[H|(A & ps' & ts & H1 & H2 & H3 & H4 & H5)]]; [left; auto|right; left; auto|]. right. right. split; auto. exists ps', ts. repeat (split; [assumption|]).
  split; [exact (all_kept _ _ _ _ _ _ _ _ DF H1 H4)|]. intros r p p' Hp Hp'. exact (part_change _ _ _ _ _ _ _ _ DF H1 H4 r p p' Hp Hp').
Qed.
Print Assumptions C58_step.

(** A whole run: it ends after at most max_iterations rounds; the parts are the ones given but for their vertex weights, none of which is
    negative; the total weight is unchanged; the flow handed back is the positive part of an antisymmetric net flow between vertices of
    different parts, and every part has lost exactly its net outflow. *)
Theorem C58_balance : forall val D fuel inp sideTol ps gs, diffusible val fuel (w_type inp) ps -> (0 < all_total ps)%Z -> placed ps (map (fun g => (g, [])) gs) ->
  wb_balance val D fuel inp sideTol gs (fun st w' => (0 <= st <= Z.max 0 (w_max inp) + 1)%Z /\ exists ps' (net : Z -> Z -> Z),
    same_but_weights ps ps' /\ placed ps' w' /\ (forall p z, In p ps' -> In z (in_vws p) -> (0 <= z)%Z) /\ all_total ps' = all_total ps /\
    (forall a b, net b a = (- net a b)%Z) /\
    (forall a b, net a b <> 0%Z -> exists p q, In p ps /\ In q ps /\ In a (in_verts p) /\ In b (in_verts q) /\ ~ In b (in_verts p)) /\
    (forall r p s a b, nth_error ps r = Some p -> nth_error w' r = Some s -> In a (in_verts p) ->
       fl_get (snd s) a b = Z.max 0 (net a b) /\ (fl_has (snd s) a b = true <-> (0 < net a b)%Z)) /\
    (forall r p p', nth_error ps r = Some p -> nth_error ps' r = Some p' ->
       part_total p' = (part_total p - sumf (fun a => sumf (net a) (flat_map in_verts ps)) (in_verts p))%Z)).
Proof.
  intros val D fuel inp sideTol ps gs DF POS HP. set (w0 := map (fun g : graph => (g, [] : flow)) gs) in *.
  assert (F0 : forall r s a b, nth_error w0 r = Some s -> fl_get (snd s) a b = 0%Z). { intros r s a b Hs. unfold w0 in Hs. rewrite nth_error_map in Hs. destruct (nth_error gs r); [|discriminate]. inversion Hs. reflexivity. }
  set (full p := reweigh p (vertex_weights (in_verts p) (in_vws p))).
  assert (LF : forall p, In p ps -> length (vertex_weights (in_verts p) (in_vws p)) = length (in_verts p)). { intros p Ip. destruct (df_valid _ _ _ _ DF p Ip) as (_ & L & _). unfold vertex_weights. rewrite app_length, repeat_length. lia. }
  assert (S0 : same_but_weights ps (map full ps)).
  { split; [apply map_length|]. intros r p p' Hp Hp'. rewrite nth_error_map, Hp in Hp'. inversion Hp'; subst. eexists. split; [reflexivity|]. apply LF. eapply nth_error_In; eauto. }
  assert (TF : forall p, In p ps -> part_total (full p) = part_total p). { intros p Ip. unfold part_total, full, vertex_weights at 1. cbn [reweigh in_verts in_vws]. rewrite (LF p Ip), Nat.sub_diag. cbn [repeat]. now rewrite app_nil_r. }
  assert (I0 : inv val fuel (w_type inp) ps (map full ps) w0 (fun _ _ => 0%Z)).
  { constructor; auto.
    - destruct HP as (L & B). split; [now rewrite map_length|]. intros r p' s Hp' Hs. rewrite nth_error_map in Hp'. destruct (nth_error ps r) as [p|] eqn:Hp; [|discriminate]. inversion Hp'; subst p'. cbn [full reweigh in_verts in_vws in_tys in_owns].
      pose proof (nth_error_In _ _ Hp) as Ip. pose proof (df_valid _ _ _ _ DF p Ip) as HV. pose proof HV as (_ & LV & _). rewrite (build_weights _ _ _ _ _ _ (vertex_weights (in_verts p) (in_vws p)) (fst s) LV (LF p Ip) (B r p s Hp Hs)).
      destruct (part_rep _ _ _ _ _ _ _ HV (B r p s Hp Hs)) as (R & _). f_equal. destruct (fst s) as [hg nl ng lu lw gu vm ts ow me] eqn:EG. unfold set_weights. cbn. f_equal. pose proof (rp_lwg _ _ _ _ _ R) as X. pose proof (rp_nlv _ _ _ _ _ R) as Y. cbn in X, Y. rewrite Y.
      rewrite firstn_all2 by (unfold ainit; rewrite map_length, LF; auto). rewrite X. reflexivity.
    - eapply diffusible_reweigh; eauto. intros p' z Ip' Hz. apply in_map_iff in Ip' as (p & <- & Ip). cbn [full reweigh in_vws] in Hz. unfold vertex_weights in Hz. apply in_app_iff in Hz as [Hz|Hz]; [eapply (df_weights _ _ _ _ DF); eauto|]. apply repeat_spec in Hz. lia.
    - unfold all_total. rewrite sumf_map. apply sumf_ext. auto.
    - intros r p s a b _ Hs _. now apply (F0 r).
    - intros r p0 p Hp0 Hp. rewrite nth_error_map, Hp0 in Hp. inversion Hp; subst. rewrite TF by (eapply nth_error_In; eauto). rewrite (sumf_zero _ _ (in_verts p0)); [lia|]. intros. now apply sumf_zero.
    - intros a b H. lia. }
  assert (FIN : forall ps' w' net, inv val fuel (w_type inp) ps ps' w' net -> same_but_weights ps ps' /\ placed ps' (map (fun s => (fst s, simplify (snd s))) w') /\ (forall p z, In p ps' -> In z (in_vws p) -> (0 <= z)%Z) /\ all_total ps' = all_total ps /\
    (forall a b, net b a = (- net a b)%Z) /\ (forall a b, net a b <> 0%Z -> exists p q, In p ps /\ In q ps /\ In a (in_verts p) /\ In b (in_verts q) /\ ~ In b (in_verts p)) /\
    (forall r p s a b, nth_error ps r = Some p -> nth_error (map (fun s => (fst s, simplify (snd s))) w') r = Some s -> In a (in_verts p) -> fl_get (snd s) a b = Z.max 0 (net a b) /\ (fl_has (snd s) a b = true <-> (0 < net a b)%Z)) /\
    (forall r p p', nth_error ps r = Some p -> nth_error ps' r = Some p' -> part_total p' = (part_total p - sumf (fun a => sumf (net a) (flat_map in_verts ps)) (in_verts p))%Z)).
  { intros ps' w' net I. split; [apply I|]. split.
    { destruct (iv_placed _ _ _ _ _ _ _ I) as (L & B). split; [now rewrite map_length|]. intros r p s Hp Hs. rewrite nth_error_map in Hs. destruct (nth_error w' r) as [s0|] eqn:E; [|discriminate]. inversion Hs; subst. cbn [fst]. eauto. }
    split; [apply (iv_df _ _ _ _ _ _ _ I)|]. split; [apply I|]. split; [apply I|]. split; [apply I|]. split; [|apply I].
    intros r p s a b Hp Hs Ha. rewrite nth_error_map in Hs. destruct (nth_error w' r) as [s0|] eqn:E; [|discriminate]. inversion Hs; subst. cbn [snd]. destruct (same_nth_r ps ps' r p (iv_same _ _ _ _ _ _ _ I) Hp) as (p' & Hp' & V & _).
    rewrite <- (iv_flow _ _ _ _ _ _ _ I r p' s0 a b Hp' E) by (now rewrite V). split; [apply simplify_get|apply simplify_has]. }
  unfold wb_balance. fold w0. destruct (Nat.eqb_spec (length gs) 1) as [E1|N1].
  - split; [lia|]. exists (map full ps), (fun _ _ => 0%Z). pose proof (FIN _ _ _ I0) as X. assert (ES : map (fun s => (fst s, simplify (snd s))) w0 = w0) by (unfold w0; rewrite map_map; reflexivity). rewrite ES in X. exact X.
  - eapply loop_done; eauto; [exists []; reflexivity|lia|lia|]. intros st ps' w' net' I B. split; [lia|]. exists ps', net'. now apply FIN.
Qed.
Print Assumptions C58_balance.

(** The condition on the edges is needed: for a shared edge without an owned pin the selector uses a null vertex. *)
Theorem C58_orphan_undefined : let p := mkPartIn [1]%Z [10]%Z [([(101, [2; 3])], [])]%Z [(2, 1); (3, 2)]%Z in
  valid_input true (in_verts p) (in_vws p) (in_tys p) /\ exists g, build_part 0%Z true (in_verts p) (in_vws p) (in_tys p) (in_owns p) = Some g /\ forall ord, weight_plan 1 ord g 20 (mkC [] 0%Q) = None.
Proof.
  split.
  - split; [repeat constructor; cbn; intuition lia|]. split; [cbn; lia|]. split; [cbn; lia|]. intros es ws [X|[]]; inversion X; subst. split; [auto|discriminate].
  - destruct (build_part 0%Z true _ _ _ _) as [g|] eqn:E; [|vm_compute in E; discriminate]. exists g. split; auto. intros ord. vm_compute in E. inversion E; subst g. vm_compute. reflexivity.
Qed.
Print Assumptions C58_orphan_undefined.

(** ** a concrete case: parts of weight 60 and 10 that share two edges *)
Definition wb_ps : list part_in := [mkPartIn [1; 2]%Z [40; 20]%Z [([(100, [1; 3]); (101, [2; 3])], [])]%Z [(3, 1)]%Z; mkPartIn [3; 4]%Z [5; 5]%Z [([(100, [1; 3]); (101, [2; 3])], [])]%Z [(1, 0); (2, 0)]%Z].
Definition wb_inp : winput := mkWI 100 (21 # 20) (1 # 2) 0.
Example C58_diffusible : diffusible inject_Z 100 0 wb_ps /\ all_total wb_ps = 70%Z.
Proof.
  split; [|reflexivity]. constructor.
  - intros r p v Hp Hv. destruct r as [|[|r]]; cbn in Hp; try (destruct r; discriminate); inversion Hp; subst; vm_compute in Hv; repeat destruct Hv as [<-|Hv]; try destruct Hv.
    + exists 1. eexists. split; [reflexivity|]. split; [reflexivity|]. cbn; auto.
    + exists 0. eexists. split; [reflexivity|]. split; [reflexivity|]. cbn; auto.
    + exists 0. eexists. split; [reflexivity|]. split; [reflexivity|]. cbn; auto.
  - repeat constructor; cbn; intuition lia.
  - intros p [<-|[<-|[]]]; (split; [repeat constructor; cbn; intuition lia|]; split; [cbn; lia|]; split; [cbn; lia|]; intros es ws [X|[]]; inversion X; subst; split; [auto|discriminate]).
  - intros p z [<-|[<-|[]]]; cbn; intuition lia.
  - intros p [<-|[<-|[]]]; cbn; lia.
  - intros p k ty e Ip Ht He. assert (k = 0 /\ fst ty = [(100, [1; 3]); (101, [2; 3])]%Z) as (-> & E). { destruct Ip as [<-|[<-|[]]]; destruct k as [|[|k]]; cbn in Ht; try discriminate; inversion Ht; auto. }
    rewrite E in He. split.
    + destruct Ip as [<-|[<-|[]]]; destruct He as [<-|[<-|[]]]; cbn; [exists 1%Z|exists 2%Z|exists 3%Z|exists 3%Z]; auto.
    + intros p' u [<-|[<-|[]]] Hu _; eexists; exists e; (split; [reflexivity|]; split; [exact He|tauto]).
  - intros p ty e [<-|[<-|[]]] Ht He; cbn in Ht; inversion Ht; subst; vm_compute in He; destruct He as [<-|[<-|[]]]; vm_compute; discriminate.
  - intros p [<-|[<-|[]]]; (split; [cbn; lia|]; intros ty [<-|[]]; vm_compute; lia).
Qed.
(** part 0 weighs 60, far above 21/20 times the average 35; its target for part 1 is 25, and it plans to send 18 and 7 from its vertices *)
Definition wb_gs : option (list graph) := mapM (fun x => build_part (Z.of_nat (fst x)) true (in_verts (snd x)) (in_vws (snd x)) (in_tys (snd x)) (in_owns (snd x))) (combine (seq 0 2) wb_ps).
Example C58_plan_example : (gs <- wb_gs ;; match gs with
  | [g0; g1] => s0 <- makeSides inject_Z g0 0 100 ;; a <- getWeight (units 1) g0 None None false 100 ;; b <- getWeight (units 1) g1 None None false 100 ;;
      t <- wb_targets wb_inp 2 20 g0 (s0, (a, mkC [(1%Z, b)] b)) ;; plan <- weight_plan 1 (fun l => l) g0 100 t ;; l <- wi_run 100 (wi_begin (wm_sending plan)) ;;
      Some (map (fun x => (fst x, Qred (snd x))) (c_d t), l)
  | _ => None end) = Some ([(1%Z, 25%Q)], [(1, 3, 18%Z); (2, 3, 7%Z)]).
Proof. vm_compute. reflexivity. Qed.
Example C58_placed_example : exists gs, wb_gs = Some gs /\ placed wb_ps (map (fun g => (g, [])) gs).
Proof.
  destruct wb_gs as [gs|] eqn:E; [|vm_compute in E; discriminate]. exists gs. split; auto. vm_compute in E. inversion E; subst gs. split; [reflexivity|].
  intros r p s Hp Hs. destruct r as [|[|r]]; cbn in Hp, Hs; try (destruct r; discriminate); inversion Hp; inversion Hs; subst; vm_compute; reflexivity.
Qed.
