(** C73 continued: when everything that is requested fits, everything that is planned is sent. *)
From Coq Require Import Reals Lra Psatz.
From Flocq Require Import Core BinarySingleNaN.
From Verif Require Import Base GraphModel Comm TagModel ConnModel GraphSpec SelectorModel SelectorProofs.
From Verif Require Import FloatModel FloatSpec FloatProofs FloatProofs2 FloatProofs3 FloatProofs4 FloatProps.
From Verif Require Import CancelFloatModel CancelFloatSpec CancelFloatProofs CancelFloatProofs2 CancelFloatProps GrantFloatProps.
From Verif Require Import TransferFloatModel TransferFloatProps.
Local Open Scope R_scope.

Lemma fold_last_true l : Forall (fun a => flt f0 a = true) l -> fold_left (fun _ a => flt f0 a) l true = true.
Proof. induction 1 as [|a l H _ IH]; [reflexivity|]. cbn [fold_left]. now rewrite H. Qed.
Lemma granted_nonneg n inc i : requests_ok n inc -> 0 <= granted inc i.
Proof.
  induction 1 as [|m inc (_ & F) _ IH]; [unfold granted; cbn; lra|]. unfold granted in *. cbn [map rsum fold_right]. destruct (nth_error (snd m) i) as [x|] eqn:E; [|unfold rsum in IH; lra].
  pose proof (proj1 (Forall_forall _ _) F x (nth_error_In _ _ E)) as (_ & P). unfold rsum in IH. lra.
Qed.
Lemma whole_requests_ok n inc : whole_requests n inc -> requests_ok n inc.
Proof. intros H. eapply Forall_impl; [|exact H]. intros m (L & F). split; auto. eapply Forall_impl; [|exact F]. intros x (k & K & W). eapply whole_ok; eauto. Qed.
Lemma nth_combine {A B} (a : list A) (b : list B) i x y : nth_error (combine a b) i = Some (x, y) <-> nth_error a i = Some x /\ nth_error b i = Some y.
Proof.
  revert b i. induction a as [|h a IH]; intros b i; [destruct i; cbn; split; [discriminate|intros (C & _); discriminate|discriminate|intros (C & _); discriminate]|].
  destruct b as [|k b]; [destruct i; cbn; split; try discriminate; intros (_ & C); discriminate|]. destruct i as [|i]; cbn [combine nth_error]; [|apply IH].
  split; [intros X; inversion X; auto|intros (X & Y); inversion X; inversion Y; auto].
Qed.
Lemma accept_all_aux inc : forall avail acc, Forall (fun a => ok a /\ value a < IZR (2 ^ 53)) avail -> whole_requests (length avail) inc ->
  (forall i a, nth_error avail i = Some a -> granted inc i < value a) ->
  snd (fold_left accept_step_f inc ((true, avail), acc)) = acc ++ inc.
Proof.
  induction inc as [|m inc IH]; intros avail acc HA HW HF; [now rewrite app_nil_r|]. inversion HW as [|? ? (Lm & Fm) HW']; subst. pose proof (whole_requests_ok _ _ HW') as OK'.
  assert (K : forall i x a, nth_error (snd m) i = Some x -> nth_error avail i = Some a -> fin x = true /\ fin a = true /\ 0 <= value x /\ value x + granted inc i < value a /\ value a < IZR (2 ^ 53) /\ fin (fsub a x) = true /\ value (fsub a x) = value a - value x).
  { intros i x a Ex Ea. destruct (proj1 (Forall_forall _ _) Fm x (nth_error_In _ _ Ex)) as (k & K & Fx & Vx). destruct (proj1 (Forall_forall _ _) HA a (nth_error_In _ _ Ea)) as ((Fa & Pa) & Ta).
    pose proof (HF i a Ea) as G. unfold granted in G. cbn [map rsum fold_right] in G. rewrite Ex in G. fold (rsum (map (fun m => match nth_error (snd m) i with Some x => value x | None => 0 end) inc)) in G. fold (granted inc i) in G. pose proof (granted_nonneg _ _ i OK') as G0.
    assert (P : 0 <= value x) by (rewrite Vx; now apply IZR_le). destruct (fsub_between a x Fa Fx ltac:(lra)) as (F & V & _). repeat split; auto. rewrite V. apply rnd_fmt. rewrite Vx in *. apply fmt_sub_whole; [apply fmt_value|lra|lra]. }
  assert (Sp : forallb (fun x => negb (flt (snd x) (fst x))) (combine (snd m) avail) = true).
  { apply forallb_forall. intros (x, a) Hx. apply In_nth_error in Hx. destruct Hx as (i & Hi). apply nth_combine in Hi. destruct Hi as (Ex & Ea). destruct (K i x a Ex Ea) as (Fx & Fa & P & G & _). cbn [fst snd]. rewrite (flt_ok _ _ Fa Fx). apply negb_true_iff. apply Rlt_bool_false. pose proof (granted_nonneg _ _ i OK'). lra. }
  set (avail' := map (fun x => fsub (fst x) (snd x)) (combine avail (snd m))).
  assert (N' : forall i a', nth_error avail' i = Some a' -> exists x a, nth_error (snd m) i = Some x /\ nth_error avail i = Some a /\ a' = fsub a x).
  { intros i a' H. unfold avail' in H. rewrite nth_error_map in H. destruct (nth_error (combine avail (snd m)) i) as [(a, x)|] eqn:E; [|discriminate]. apply nth_combine in E. destruct E as (Ea & Ex). inversion H. exists x, a. auto. }
  assert (L' : length avail' = length avail) by (unfold avail'; rewrite map_length, combine_length, Lm; lia).
  cbn [fold_left]. unfold accept_step_f at 2. cbv beta iota. rewrite Sp. cbv zeta. fold avail'. rewrite fold_last_true.
  - rewrite (IH avail' (acc ++ [(fst m, snd m)])); [rewrite <- app_assoc; destruct m; reflexivity| | |].
    + apply Forall_forall. intros a' H. apply In_nth_error in H. destruct H as (i & H). destruct (N' i a' H) as (x & a & Ex & Ea & ->). destruct (K i x a Ex Ea) as (Fx & Fa & P & G & T & F & V). pose proof (granted_nonneg _ _ i OK'). split; [split; [exact F|]|]; rewrite V; lra.
    + now rewrite L'.
    + intros i a' H. destruct (N' i a' H) as (x & a & Ex & Ea & ->). destruct (K i x a Ex Ea) as (Fx & Fa & P & G & T & F & V). rewrite V. lra.
  - apply Forall_forall. intros a' H. apply In_nth_error in H. destruct H as (i & H). destruct (N' i a' H) as (x & a & Ex & Ea & ->). destruct (K i x a Ex Ea) as (Fx & Fa & P & G & T & F & V). pose proof (granted_nonneg _ _ i OK'). rewrite (flt_ok f0 _ (eq_refl : fin f0 = true) F), V, value_f0. apply Rlt_bool_true. lra.
Qed.
(** what fits with something to spare in every completed dimension is granted in full, to every requester *)
Theorem C73_accept_all : forall lims ws inc, length lims = length ws -> Forall (fun x => ok x /\ value x < IZR (2 ^ 53)) lims ->
  Forall (fun x => exists k, (0 <= k)%Z /\ whole x k) ws -> whole_requests (length lims) inc ->
  (forall i lim w, nth_error lims i = Some lim -> nth_error ws i = Some w -> granted inc i < value lim - value w) ->
  accept_f (availability_f lims ws) inc = inc.
Proof.
  intros lims ws inc LL OL OW HI HF. unfold accept_f, availability_f. set (avail := map (fun x => fsub (fst x) (snd x)) (combine lims ws)). cbv zeta.
  pose proof (whole_requests_ok _ _ HI) as OK.
  assert (N : forall i a, nth_error avail i = Some a -> fin a = true /\ granted inc i < value a /\ value a < IZR (2 ^ 53)).
  { intros i a H. unfold avail in H. rewrite nth_error_map in H. destruct (nth_error (combine lims ws) i) as [(l, w)|] eqn:E; [|discriminate]. apply nth_combine in E. destruct E as (El & Ew). inversion H. cbn [fst snd] in *. subst a.
    specialize (HF i l w El Ew). pose proof (granted_nonneg _ _ i OK). destruct (proj1 (Forall_forall _ _) OL l (nth_error_In _ _ El)) as ((Fl & Pl) & Tl). destruct (proj1 (Forall_forall _ _) OW w (nth_error_In _ _ Ew)) as (k & K & Fw & Vw).
    assert (P : 0 <= value w) by (rewrite Vw; now apply IZR_le). destruct (fsub_between l w Fl Fw ltac:(lra)) as (F & V & _). assert (V' : value (fsub l w) = value l - value w) by (rewrite V; apply rnd_fmt; rewrite Vw in *; apply fmt_sub_whole; [apply fmt_value|lra|lra]). rewrite V'. repeat split; auto; lra. }
  assert (L : length avail = length lims) by (unfold avail; rewrite map_length, combine_length; lia).
  assert (A : forallb (fun a => negb (flt a f0)) avail = true).
  { apply forallb_forall. intros a H. apply In_nth_error in H. destruct H as (i & H). destruct (N i a H) as (F & G & _). pose proof (granted_nonneg _ _ i OK). rewrite (flt_ok a f0 F (eq_refl : fin f0 = true)), value_f0. apply negb_true_iff. apply Rlt_bool_false. lra. }
  rewrite A. apply accept_all_aux; [|now rewrite L|intros i a H; apply (N i a H)]. apply Forall_forall. intros a H. apply In_nth_error in H. destruct H as (i & H). destruct (N i a H) as (F & G & T). pose proof (granted_nonneg _ _ i OK). split; [split; [exact F|lra]|exact T].
Qed.
Print Assumptions C73_accept_all.

(** Nothing to spare: the requests fit exactly, but after the first one the last dimension is full and the second is granted nothing,
    although it asks for nothing there *)
Theorem C73_accept_all_refuted : exists lims ws inc, length lims = length ws /\ Forall (fun x => ok x /\ value x < IZR (2 ^ 53)) lims /\
  Forall (fun x => exists k, (0 <= k)%Z /\ whole x k) ws /\ whole_requests (length lims) inc /\
  (forall i lim w, nth_error lims i = Some lim -> nth_error ws i = Some w -> granted inc i <= value lim - value w) /\
  exists m, nth_error (accept_f (availability_f lims ws) inc) 1 = Some (fst m, [f0; f0]) /\ nth_error inc 1 = Some m /\ nth_error (snd m) 0 = Some (of_int 1).
Proof.
  assert (C : forall n, (0 <= n < 2 ^ 53)%Z -> ok (of_int n) /\ value (of_int n) < IZR (2 ^ 53)) by (intros n H; split; [apply int_ok, H|destruct (int_whole n H) as (_ & ->); apply IZR_lt, H]).
  assert (W : forall n, (0 <= n < 2 ^ 53)%Z -> exists k, (0 <= k)%Z /\ whole (of_int n) k) by (intros n H; exists n; split; [lia|now apply int_whole]).
  assert (V : forall n, (0 <= n < 2 ^ 53)%Z -> value (of_int n) = IZR n) by (intros n H; apply (int_whole n H)).
  exists [of_int 100; of_int 100], [of_int 0; of_int 90], [(0%Z, [of_int 1; of_int 10]); (2%Z, [of_int 1; of_int 0])]. split; [reflexivity|].
  split; [constructor; [apply C; lia|constructor; [apply C; lia|constructor]]|]. split; [constructor; [apply W; lia|constructor; [apply W; lia|constructor]]|].
  split; [constructor; [|constructor; [|constructor]]; (split; [reflexivity|]); cbn [snd]; constructor; try (apply W; lia); constructor; try (apply W; lia); constructor|]. split.
  - intros [|[|i]] lim w E1 E2; cbn [nth_error] in E1, E2; [| |destruct i; discriminate E1].
    + assert (lim = of_int 100) as -> by congruence. assert (w = of_int 0) as -> by congruence. unfold granted. cbn [map rsum fold_right snd nth_error]. rewrite !V by lia. lra.
    + assert (lim = of_int 100) as -> by congruence. assert (w = of_int 90) as -> by congruence. unfold granted. cbn [map rsum fold_right snd nth_error]. rewrite !V by lia. lra.
  - exists (2%Z, [of_int 1; of_int 0]). split; [|split; reflexivity]. cbn [fst].
    assert (T : match nth_error (accept_f (availability_f [of_int 100; of_int 100] [of_int 0; of_int 90]) [(0%Z, [of_int 1; of_int 10]); (2%Z, [of_int 1; of_int 0])]) 1 with Some (2%Z, [B754_zero false; B754_zero false]) => true | _ => false end = true) by (vm_compute; reflexivity).
    destruct (nth_error (accept_f _ _) 1) as [(z, l)|]; [|discriminate T]. destruct z as [|[p|[p|p|]|]|p]; try discriminate T. destruct l as [|x [|y [|? ?]]]; try discriminate T; destruct x as [[|]|?| |? ? ? ?]; try discriminate T; destruct y as [[|]|?| |? ? ? ?]; try discriminate T; try reflexivity; destruct l; try discriminate T; reflexivity.
Qed.
Print Assumptions C73_accept_all_refuted.

Lemma mapM_nth {A B} (f : A -> option B) l r i a b : mapM f l = Some r -> nth_error l i = Some a -> nth_error r i = Some b -> f a = Some b.
Proof.
  revert r i. induction l as [|x l IH]; intros r i H Ha Hb; [destruct i; discriminate Ha|]. cbn [mapM] in H. destruct (obind_some _ _ _ H) as (y & Ey & H1). destruct (obind_some _ _ _ H1) as (ys & Ey2 & H2). inversion H2; subst.
  destruct i as [|i]; cbn [nth_error] in *; [congruence|eapply IH; eauto].
Qed.
Lemma mapM_F2 {A B} (f : A -> option B) l r : mapM f l = Some r -> Forall2 (fun a b => f a = Some b) l r.
Proof.
  revert r. induction l as [|x l IH]; intros r H; cbn [mapM] in H; [inversion H; constructor|]. destruct (obind_some _ _ _ H) as (y & Ey & H1). destruct (obind_some _ _ _ H1) as (ys & Ey2 & H2). inversion H2; subst. constructor; auto.
Qed.
Lemma requests_whole dims q senders reqs : Forall sender_whole senders -> mapM (request_msg dims q) senders = Some reqs ->
  Forall (fun m => Forall (fun x => fin x = true /\ value x < IZR (2 ^ 53)) (snd m)) reqs -> whole_requests (length dims) reqs.
Proof.
  intros HS HR HF. pose proof (request_inv _ _ _ _ HR) as HI. unfold whole_requests. rewrite Forall_forall in HF |- *. intros m Hm.
  assert (X : exists s, In s senders /\ length (snd m) = length dims /\ forall x, In x (snd m) -> exists dm, In dm dims /\ request_f (s_fv s) (s_ord s) (s_g s) (s_gw s) (s_fuel s) q (s_plan s) dm = Some x).
  { clear - HI Hm. induction HI as [|s a l l' (_ & P) _ IH]; [destruct Hm|]. destruct Hm as [->|Hm]; [exists s; split; [now left|exact P]|]. destruct (IH Hm) as (s' & I & P'). exists s'. split; [now right|exact P']. }
  destruct X as (s & Is & Ls & Rs). split; [congruence|]. apply Forall_forall. intros x Hx. destruct (Rs x Hx) as (dm & _ & Ex). destruct (proj1 (Forall_forall _ _) HS s Is) as (Hw & Ho & _). destruct (proj1 (Forall_forall _ _) (HF m Hm) x Hx) as (Fx & Tx).
  assert (Y : exists w2, Forall (fun w => exists n, (0 <= n)%Z /\ whole w n) w2 /\ x = fsum w2).
  { destruct dm as [t|]; unfold request_f in Ex.
    - destruct (obind_some _ _ _ Ex) as (S2 & _ & E3). destruct (set_weight_names _ _ _ _ _ E3) as (w2 & W2 & ->). exists w2. split; auto. apply (edge_weights_all _ _ (s_gw s) _ _ _ Hw W2).
    - destruct (request_verts _ _ (s_gw s) q _ [] [] (Forall2_nil _) _ Ex) as (w2 & W2 & ->). exists w2. split; auto. eapply vertex_weights_all; eauto. }
  destruct Y as (w2 & O & ->). destruct (ints _ O) as (ns & Wn & Nn). destruct (fsum_red w2) as (Er & Lr). rewrite Er in *. assert (W0 : whole f0 0) by (split; [reflexivity|apply value_f0]).
  destruct (tree_whole (seq_red w2 (Val f0)) (0 :: ns)%Z) as [(W & _)|[(I & _)|(_ & B & _)]]; [rewrite Lr; constructor; auto|constructor; [lia|exact Nn]| | |lra].
  - exists (zsum (0 :: ns)%Z). split; auto. apply zsum_ge0. constructor; [lia|exact Nn].
  - rewrite I in Fx. discriminate Fx.
Qed.
(** whole-number weights: when what all senders plan for part [q] fits there with something to spare in every completed dimension, and
    whatever they plan for other parts was granted too, every sender keeps its whole plan *)
Theorem C73_transfer_all : forall dims q lims ws senders reqs kepts,
  vertices_once dims -> length lims = length dims -> length ws = length dims ->
  Forall (fun x => ok x /\ value x < IZR (2 ^ 53)) lims -> Forall (fun x => exists k, (0 <= k)%Z /\ whole x k) ws ->
  Forall sender_whole senders ->
  mapM (request_msg dims q) senders = Some reqs -> Forall (fun m => Forall (fun x => fin x = true /\ value x < IZR (2 ^ 53)) (snd m)) reqs ->
  (forall i lim w, nth_error lims i = Some lim -> nth_error ws i = Some w -> granted reqs i < value lim - value w) ->
  Forall2 (fun s a => s_cap s q = snd a) senders (answers_f lims ws reqs) ->
  (forall s d i dm c, In s senders -> d <> q -> nth_error dims i = Some dm -> nth_error (s_cap s d) i = Some c ->
     exists r, request_f (s_fv s) (s_ord s) (s_g s) (s_gw s) (s_fuel s) d (s_plan s) dm = Some r /\ flt c r = false) ->
  Forall2 (fun s k => kept_f dims s = Some k) senders kepts ->
  kepts = map s_plan senders.
Proof.
  intros dims q lims ws senders reqs kepts H1 L1 L2 OL OW HS HR HF HG HA HO HK. pose proof (requests_whole _ _ _ _ HS HR HF) as WR.
  unfold answers_f in HA. rewrite (C73_accept_all lims ws reqs ltac:(congruence) OL OW ltac:(now rewrite L1) HG) in HA. clear HG OL OW WR L1 L2.
  apply mapM_F2 in HR. revert reqs HR HF HA. induction HK as [|s k senders kepts Ek _ IH]; intros reqs HR HF HA; [reflexivity|]. inversion HR as [|? m ? reqs' Em HR']; subst. inversion HF as [|? ? Fm HF']; subst. inversion HA as [|? ? ? ? Ea HA']; subst. inversion HS as [|? ? (Hw & Ho & Hc) HS']; subst.
  cbn [map]. rewrite <- (IH HS' (fun s d i dm c I => HO s d i dm c (or_intror I)) reqs' HR' HF' HA'). f_equal.
  unfold kept_f in Ek. refine (C73_granted _ _ _ _ _ _ _ _ k Hw Ho Hc H1 _ Ek). intros d i dm c Hi Hd. destruct (Z.eq_dec d q) as [->|Nd]; [|apply (HO s d i dm c (or_introl eq_refl) Nd Hi Hd)].
  rewrite Ea in Hd. unfold request_msg in Em. destruct (obind_some _ _ _ Em) as (xs & Ex & E3). inversion E3; subst m. cbn [snd] in *. exists c. split; [apply (mapM_nth _ _ _ _ _ _ Ex Hi Hd)|]. destruct (proj1 (Forall_forall _ _) Fm c (nth_error_In _ _ Hd)) as (Fc & _). rewrite (flt_ok c c Fc Fc). apply Rlt_bool_false. lra.
Qed.
Print Assumptions C73_transfer_all.

(** ** A case: the senders of C73_transfer_example, but the receiving part has place for 30 vertices: both keep their whole plan *)
Definition ty_ws : list b64 := [of_int 10; of_int 70].
(** what part [q] granted; the other parts are not asked and grant nothing *)
Definition ty_cap (c : list b64) : Z -> list b64 := fun d => if Z.eqb d 1 then c else [f0; f0].
Definition ty_sender (g : graph) (id : Z) (ord : list nat -> list nat) (c : list b64) : sender := mkSender id (fun x => of_int (ex_n x)) ord g None 20 cx_plan (ty_cap c).
Definition ty_senders (g : graph) (c1 c2 : list b64) : list sender := [ty_sender g 0 (@rev nat) c1; ty_sender g 2 (fun l => l) c2].
Definition ty_req (m : Z * list b64) : bool := match snd m with [a; b] => tx_small a && tx_small b && flt a (of_int 20) && flt b (of_int 12) | _ => false end%bool.
Definition ty_check : bool := match cx_g with
  | Some g => match mapM (request_msg tx_dims 1) (ty_senders g [] []) with
    | Some [m1; m2] => ty_req m1 && ty_req m2 &&
      match kept_f tx_dims (ty_sender g 0 (@rev nat) (snd m1)), kept_f tx_dims (ty_sender g 2 (fun l => l) (snd m2)) with
      | Some k1, Some k2 => (if tx_eq k1 cx_plan then true else false) && (if tx_eq k2 cx_plan then true else false)
      | _, _ => false
      end
    | _ => false
    end
  | None => false
  end%bool.
Lemma ty_req_ok m : ty_req m = true -> exists a b, snd m = [a; b] /\ (ok a /\ value a < IZR (2 ^ 53)) /\ (ok b /\ value b < IZR (2 ^ 53)) /\ value a < 20 /\ value b < 12.
Proof.
  unfold ty_req. destruct (snd m) as [|a [|b [|? ?]]]; try discriminate. intros H. apply andb_true_iff in H. destruct H as (H & D). apply andb_true_iff in H. destruct H as (H & C). apply andb_true_iff in H. destruct H as (A & B).
  apply tx_small_ok in A, B. exists a, b. split; [reflexivity|]. split; [exact A|]. split; [exact B|]. destruct A as ((Fa & _) & _), B as ((Fb & _) & _).
  destruct (int_whole 20 ltac:(lia)) as (F20 & V20). destruct (int_whole 12 ltac:(lia)) as (F12 & V12). rewrite (flt_ok _ _ Fa F20), V20 in C. rewrite (flt_ok _ _ Fb F12), V12 in D.
  split; [destruct (Rlt_bool_spec (value a) 20); [assumption|discriminate C]|destruct (Rlt_bool_spec (value b) 12); [assumption|discriminate D]].
Qed.
Example C73_transfer_all_example : exists g reqs c1 c2, cx_g = Some g /\
  vertices_once tx_dims /\ length tx_lims = length tx_dims /\ length ty_ws = length tx_dims /\
  Forall (fun x => ok x /\ value x < IZR (2 ^ 53)) tx_lims /\ Forall (fun x => exists k, (0 <= k)%Z /\ whole x k) ty_ws /\
  Forall sender_whole (ty_senders g c1 c2) /\
  mapM (request_msg tx_dims 1) (ty_senders g c1 c2) = Some reqs /\ Forall (fun m => Forall (fun x => fin x = true /\ value x < IZR (2 ^ 53)) (snd m)) reqs /\
  (forall i lim w, nth_error tx_lims i = Some lim -> nth_error ty_ws i = Some w -> granted reqs i < value lim - value w) /\
  Forall2 (fun s a => s_cap s 1%Z = snd a) (ty_senders g c1 c2) (answers_f tx_lims ty_ws reqs) /\
  (forall s d i dm c, In s (ty_senders g c1 c2) -> d <> 1%Z -> nth_error tx_dims i = Some dm -> nth_error (s_cap s d) i = Some c ->
     exists r, request_f (s_fv s) (s_ord s) (s_g s) (s_gw s) (s_fuel s) d (s_plan s) dm = Some r /\ flt c r = false) /\
  Forall2 (fun s k => kept_f tx_dims s = Some k) (ty_senders g c1 c2) [cx_plan; cx_plan].
Proof.
  destruct C73_cancel_example as (g & E & Hw & Hk & Ho & _). assert (T : ty_check = true) by (vm_compute; reflexivity). unfold ty_check in T. rewrite E in T.
  destruct (mapM (request_msg tx_dims 1) (ty_senders g [] [])) as [[|m1 [|m2 [|? ?]]]|] eqn:Er; try discriminate T. apply andb_true_iff in T. destruct T as (T & T4). apply andb_true_iff in T. destruct T as (T1 & T2).
  destruct (kept_f tx_dims (ty_sender g 0 _ _)) as [k1|] eqn:E1; [|discriminate T4]. destruct (kept_f tx_dims (ty_sender g 2 _ _)) as [k2|] eqn:E2; [|discriminate T4].
  apply andb_true_iff in T4. destruct T4 as (T4 & T5). destruct (tx_eq k1 _) as [->|]; [|discriminate T4]. destruct (tx_eq k2 _) as [->|]; [|discriminate T5].
  apply ty_req_ok in T1, T2. destruct T1 as (a1 & b1 & S1 & A1 & B1 & La1 & Lb1), T2 as (a2 & b2 & S2 & A2 & B2 & La2 & Lb2).
  assert (C : forall n, (0 <= n < 2 ^ 53)%Z -> ok (of_int n) /\ value (of_int n) < IZR (2 ^ 53)) by (intros n H; split; [apply int_ok, H|destruct (int_whole n H) as (_ & ->); apply IZR_lt, H]).
  assert (W : forall n, (0 <= n < 2 ^ 53)%Z -> exists k, (0 <= k)%Z /\ whole (of_int n) k) by (intros n H; exists n; split; [lia|now apply int_whole]).
  assert (V : forall n, (0 <= n < 2 ^ 53)%Z -> value (of_int n) = IZR n) by (intros n H; apply (int_whole n H)).
  assert (Z0 : ok f0 /\ value f0 < IZR (2 ^ 53)) by (split; [split; [reflexivity|rewrite value_f0; lra]|rewrite value_f0; apply IZR_lt; lia]).
  assert (Sc : forall a b, ok a /\ value a < IZR (2 ^ 53) -> ok b /\ value b < IZR (2 ^ 53) -> small_caps (ty_cap [a; b])) by (intros a b Ha Hb d; unfold ty_cap; destruct (Z.eqb d 1); repeat (apply Forall_cons; [assumption|]); constructor).
  assert (G1 : Forall (fun x => ok x /\ value x < IZR (2 ^ 53)) tx_lims) by (constructor; [apply C; lia|constructor; [apply C; lia|constructor]]).
  assert (G2 : Forall (fun x => exists k, (0 <= k)%Z /\ whole x k) ty_ws) by (constructor; [apply W; lia|constructor; [apply W; lia|constructor]]).
  assert (G3 : Forall sender_whole (ty_senders g (snd m1) (snd m2))).
  { rewrite S1, S2. constructor; [|constructor; [|constructor]]; (split; [exact Hw|split]); cbn [ty_sender s_ord s_cap]; auto. }
  assert (G4 : Forall (fun m => Forall (fun x => fin x = true /\ value x < IZR (2 ^ 53)) (snd m)) [m1; m2]).
  { destruct A1 as ((? & _) & ?), B1 as ((? & _) & ?), A2 as ((? & _) & ?), B2 as ((? & _) & ?). constructor; [rewrite S1|constructor; [rewrite S2|constructor]]; (constructor; [auto|constructor; [auto|constructor]]). }
  assert (G5 : forall i lim w, nth_error tx_lims i = Some lim -> nth_error ty_ws i = Some w -> granted [m1; m2] i < value lim - value w).
  { unfold tx_lims, ty_ws. intros [|[|i]] lim w X1 X2; cbn [nth_error] in X1, X2; [| |destruct i; discriminate X1].
    - assert (lim = of_int 100) as -> by congruence. assert (w = of_int 10) as -> by congruence. unfold granted. cbn [map rsum fold_right]. rewrite S1, S2. cbn [nth_error]. rewrite !V by lia. lra.
    - assert (lim = of_int 100) as -> by congruence. assert (w = of_int 70) as -> by congruence. unfold granted. cbn [map rsum fold_right]. rewrite S1, S2. cbn [nth_error]. rewrite !V by lia. lra. }
  exists g, [m1; m2], (snd m1), (snd m2). split; [exact E|]. split.
  { clear. intros [|[|i]] [|[|j]]; cbn; intros H1 H2; try discriminate; auto; try (destruct i; discriminate); destruct j; discriminate. }
  split; [reflexivity|]. split; [reflexivity|]. split; [exact G1|]. split; [exact G2|]. split; [exact G3|]. split; [exact Er|]. split; [exact G4|]. split; [exact G5|]. split; [|split].
  - unfold answers_f. rewrite (C73_accept_all tx_lims ty_ws [m1; m2] eq_refl G1 G2 (requests_whole _ _ _ _ G3 Er G4) G5). constructor; [reflexivity|constructor; [reflexivity|constructor]].
  - intros s d i dm c Hs Nd Hi Hd. assert (Ne : Z.eqb 1 d = false) by (apply Z.eqb_neq; lia). assert (Ne' : Z.eqb d 1 = false) by (apply Z.eqb_neq; lia). assert (c = f0) as ->.
    { destruct Hs as [<-|[<-|[]]]; cbn [ty_sender s_cap] in Hd; unfold ty_cap in Hd; rewrite Ne' in Hd; destruct i as [|[|[|i]]]; cbn [nth_error] in Hd; congruence. }
    exists f0. split; [|reflexivity]. destruct Hs as [<-|[<-|[]]]; cbn [ty_sender s_fv s_ord s_g s_gw s_fuel s_plan]; unfold request_f, cx_plan; destruct dm as [t|]; cbn [foldM fst snd]; rewrite !Ne; cbn [obind]; reflexivity.
  - constructor; [exact E1|constructor; [exact E2|constructor]].
Qed.
