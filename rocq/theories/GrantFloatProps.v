(** C73 continued: what happens when a request is granted in full. *)
From Coq Require Import Reals Lra Psatz.
From Flocq Require Import Core BinarySingleNaN.
From Verif Require Import Base GraphModel Comm TagModel ConnModel GraphSpec SelectorModel SelectorProofs.
From Verif Require Import FloatModel FloatSpec FloatProofs FloatProofs2 FloatProofs3 FloatProofs4 FloatProps.
From Verif Require Import CancelFloatModel CancelFloatSpec CancelFloatProofs CancelFloatProofs2 CancelFloatProps.
Local Open Scope R_scope.
(** ** When a whole request is granted *)
Lemma interior_inv v d t S S' g fuel : interior g fuel v d t S = Some S' -> NoDup S ->
  exists es, vertex_edges g v t fuel = Some es /\ NoDup S' /\ forall e, In e S' <-> In e S \/ (In e es /\ isResidentOn g e d = Some false).
Proof.
  unfold interior. intros H N. destruct (obind_some _ _ _ H) as (es & E & H1). exists es. split; auto. clear H E. revert S N H1.
  induction es as [|x l IH]; intros a N F; cbn [foldM] in F; [inversion F; subst; split; auto; intros e; cbn; tauto|].
  destruct (isResidentOn g x d) as [rx|] eqn:Er; cbn [obind] in F; [|discriminate]. destruct rx.
  - destruct (IH _ N F) as (N' & I). split; auto. intros e. rewrite I. cbn [In]. split; [tauto|]. intros [A|([ ->|A] & C)]; [auto|congruence|auto].
  - destruct (IH _ (sadd_nodup a x N) F) as (N' & I). split; auto. intros e. rewrite I, sadd_in. cbn [In]. split; [intros [[A| ->]|A]; tauto|]. intros [A|([ ->|A] & C)]; auto.
Qed.
Lemma request_set g fuel d t plan : forall S K, brought_edges g fuel t d K S ->
  forall S', foldM (fun s m => if Z.eqb (snd m) d then interior g fuel (fst m) d t s else Some s) plan S = Some S' -> brought_edges g fuel t d (K ++ plan) S'.
Proof.
  induction plan as [|(v, d') plan IH]; intros S K (N & I) S' H; cbn [foldM] in H; [inversion H; subst; rewrite app_nil_r; split; auto|]. cbn [fst snd] in H. destruct (obind_some _ _ _ H) as (S1 & E1 & E2). clear H.
  replace (K ++ (v, d') :: plan) with ((K ++ [(v, d')]) ++ plan) by now rewrite <- app_assoc. refine (IH S1 _ _ S' E2). destruct (Z.eqb_spec d' d) as [->|Ne].
  - destruct (interior_inv _ _ _ _ _ _ _ E1 N) as (es & Ee & N1 & I1). split; auto. intros e. rewrite I1, I, brought_app. split; [intros [A|A]; [auto|right; eauto]|]. intros [A|(_ & es' & A & B & C)]; [auto|]. assert (es' = es) by congruence. subst. auto.
  - inversion E1; subst. split; auto. intros e. rewrite brought_app, I. split; [auto|]. intros [A|(A & _)]; [auto|congruence].
Qed.
Lemma request_verts fv g gw d plan : forall K w0, vertex_weights fv g gw d K w0 -> forall w, foldM (fun w m => if Z.eqb (snd m) d then x <- weight_of_f fv g gw (fst m) ;; Some (fadd w x) else Some w) plan (fsum w0) = Some w ->
  exists w1, vertex_weights fv g gw d (K ++ plan) w1 /\ w = fsum w1.
Proof.
  induction plan as [|(v, d') plan IH]; intros K w0 W w H; cbn [foldM] in H; [inversion H; subst; exists w0; rewrite app_nil_r; auto|]. cbn [fst snd] in H. destruct (obind_some _ _ _ H) as (w2 & E1 & E2). clear H.
  replace (K ++ (v, d') :: plan) with ((K ++ [(v, d')]) ++ plan) by now rewrite <- app_assoc. destruct (Z.eqb_spec d' d) as [->|Ne].
  - destruct (obind_some _ _ _ E1) as (x & Ex & E3). inversion E3; subst w2. rewrite vertex_sum in E2. apply (IH _ _ (vertex_app1 _ _ _ _ _ _ _ _ W Ex) _ E2).
  - inversion E1; subst w2. apply (IH _ _ (vertex_app _ _ _ _ _ _ _ _ W Ne) _ E2).
Qed.
Lemma rsum_incl fv g S1 S2 w1 w2 : NoDup S1 -> incl S1 S2 -> edge_weights fv g S1 w1 -> edge_weights fv g S2 w2 -> Forall ok w2 -> rsum (vals w1) <= rsum (vals w2).
Proof.
  revert S2 w1 w2. induction S1 as [|e S1 IH]; intros S2 w1 w2 N I W1 W2 O; inversion W1 as [|? x ? w1' (n & En & ->) W1']; subst.
  - cbn. apply rsum_ge0. unfold vals. rewrite Forall_map. eapply Forall_impl; [|exact O]. intros y Y. apply Y.
  - inversion N as [|? ? Ne N']; subst. destruct (in_split e S2 (I e (or_introl eq_refl))) as (A & B & ->). unfold edge_weights in W2. apply Forall2_app_inv_l in W2. destruct W2 as (wa & wb & Wa & Wb & ->). inversion Wb as [|? y ? wb' (m & Em & ->) Wb']; subst.
    assert (m = n) by congruence. subst m. apply Forall_app in O. destruct O as (Oa & Ob). inversion Ob as [|? ? Oy Ob']; subst. assert (Oab : Forall ok (wa ++ wb')) by (apply Forall_app; auto).
    assert (I' : incl S1 (A ++ B)). { intros z Hz. specialize (I z (or_intror Hz)). apply in_app_iff in I. apply in_app_iff. destruct I as [I|[<-|I]]; auto. contradiction. }
    specialize (IH (A ++ B) w1' (wa ++ wb') N' I' W1' (Forall2_app Wa Wb') Oab).
    rewrite !vals_app, !rsum_app in *. rewrite !rsum_cons. lra.
Qed.
Lemma verts_prefix fv g gw d a b w1 w2 : vertex_weights fv g gw d a w1 -> vertex_weights fv g gw d (a ++ b) w2 -> exists w3, w2 = w1 ++ w3.
Proof.
  unfold vertex_weights. rewrite filter_app. intros H1 H2. apply Forall2_app_inv_l in H2. destruct H2 as (wa & wb & Wa & _ & ->). exists wb. f_equal. clear wb. revert wa Wa. induction H1 as [|m w l ws E _ IH]; intros wa Wa; inversion Wa; subst; auto. f_equal; [congruence|auto].
Qed.
Section Granted.
Variables (fv : Z -> b64) (ord : list nat -> list nat) (g : graph) (gw : option (arr Z)) (fuel : nat) (dims : list (option nat)) (cap : Z -> list b64).
Lemma cancel_prefix a b k : cancel_f fv ord g gw fuel dims cap (a ++ b) = Some k -> exists k', cancel_f fv ord g gw fuel dims cap a = Some k'.
Proof. unfold cancel_f. rewrite foldM_app. destruct (foldM _ a _) as [r|]; cbn [obind]; [eauto|discriminate]. Qed.
Lemma brought_mono t d a b e : brought g fuel t d a e -> brought g fuel t d (a ++ b) e.
Proof. intros (v & es & I & H). exists v, es. rewrite in_app_iff. auto. Qed.
(** the part grants at least what was requested *)
Definition all_granted (plan : list (nat * Z)) : Prop :=
  forall d i dm c, nth_error dims i = Some dm -> nth_error (cap d) i = Some c -> exists r, request_f fv ord g gw fuel d plan dm = Some r /\ flt c r = false.
(** whole-number weights: then nothing is cancelled *)
Theorem C73_granted : forall plan kept,
  whole_weights fv g gw -> (forall l, Permutation (ord l) l) -> small_caps cap -> vertices_once dims -> all_granted plan ->
  cancel_f fv ord g gw fuel dims cap plan = Some kept -> kept = plan.
Proof.
  intros plan kept Hw Ho Hc H1 HG E. assert (G : forall pre post, plan = pre ++ post -> cancel_f fv ord g gw fuel dims cap pre = Some pre).
  2:{ specialize (G plan [] (eq_sym (app_nil_r _))). congruence. }
  induction pre as [|(v, d) pre IH] using rev_ind; intros post ->; [reflexivity|]. destruct (cancel_prefix _ _ _ E) as (k & Ek). rewrite Ek. f_equal.
  destruct (C73_cancel_greedy_whole fv ord g gw fuel dims cap pre v d k Hw Ho Hc H1 Ek) as (k0 & E0 & C). rewrite (IH ((v, d) :: post)) in E0 by now rewrite <- app_assoc. inversion E0; subst k0. destruct C as [C|(-> & i & c & Hd & C)]; [exact C|exfalso].
  destruct (proj1 (Forall_forall _ _) (Hc d) c (nth_error_In _ _ Hd)) as (Oc & Tc).
  destruct C as [(t & S & ws & Hi & (N & B) & W & L)|(ws & Hi & W & L)]; destruct (HG d i _ c Hi Hd) as (r & Er & Fr); unfold request_f in Er.
  - destruct (obind_some _ _ _ Er) as (S2 & E2 & E3). assert (B0 : brought_edges g fuel t d [] []) by (split; [constructor|]; intros e; split; [intros []|intros (v0 & es & [] & _)]). destruct (request_set _ _ _ _ _ _ _ B0 _ E2) as (N2 & B2). cbn [app] in B2.
    destruct (set_weight_names _ _ _ _ _ E3) as (w2 & W2 & ->). destruct (ints _ (edge_weights_all fv g gw _ w2 _ Hw W2)) as (ns & Wn & Nn). rewrite (vertex_test_whole c w2 ns Oc Tc Wn Nn) in Fr. destruct (Rlt_bool_spec (value c) (rsum (vals w2))) as [|L2]; [discriminate|].
    assert (X : rsum (vals ws) <= rsum (vals w2)); [|lra]. apply (rsum_incl fv g S (ord S2)); auto; [|apply (edge_weights_all fv g gw _ _ ok (whole_ok_all fv g gw Hw) W2)].
    intros e He. eapply Permutation_in; [apply Permutation_sym, Ho|]. apply B2, brought_mono, B, He.
  - destruct (request_verts fv g gw d _ [] [] (Forall2_nil _) _ Er) as (w2 & W2 & ->). cbn [app] in W2. destruct (ints _ (vertex_weights_all fv g gw d _ w2 _ Hw W2)) as (ns & Wn & Nn). rewrite (vertex_test_whole c w2 ns Oc Tc Wn Nn) in Fr. destruct (Rlt_bool_spec (value c) (rsum (vals w2))) as [|L2]; [discriminate|].
    destruct (verts_prefix fv g gw d _ _ _ _ W W2) as (w3 & ->). pose proof (vertex_weights_all fv g gw d _ _ ok (whole_ok_all fv g gw Hw) W2) as O. apply Forall_app in O. destruct O as (_ & O). pose proof (rsum_vals_ge0 _ O). rewrite vals_app, rsum_app in L2. lra.
Qed.
End Granted.
Print Assumptions C73_granted.

(** vertices alone: the request and the test add the same weights in the same order, so nothing is cancelled, whatever the weights *)
Lemma flt_more c w y : ok c -> (ok w \/ w = finf) -> ok y -> flt c w = true -> (ok (fadd w y) \/ fadd w y = finf) /\ flt c (fadd w y) = true.
Proof.
  intros (Fc & Pc) [Ow| ->] Oy H; [|rewrite fadd_inf_l by auto; split; auto]. destruct (fadd_sum w y Ow Oy) as [O|E]; [|rewrite E; split; [auto|now apply flt_inf]]. split; auto.
  destruct Ow as (Fw & Pw). destruct O as (F & P). rewrite (flt_ok _ _ Fc Fw) in H. rewrite (flt_ok _ _ Fc F). destruct (Rlt_bool_spec (value c) (value w)) as [L|]; [|discriminate]. apply Rlt_bool_true. destruct (fadd_fin w y F) as (_ & _ & ->).
  eapply Rlt_le_trans; [exact L|]. apply rnd_ge_fmt; [apply fmt_value|]. destruct Oy. lra.
Qed.
Lemma fsum_ok a : Forall ok a -> ok (fsum a) \/ fsum a = finf.
Proof. intros O. destruct (fsum_red a) as (-> & L). apply tree_ok. rewrite L. constructor; auto using ok_f0. Qed.
Lemma flt_prefix c a b : ok c -> Forall ok (a ++ b) -> flt c (fsum a) = true -> flt c (fsum (a ++ b)) = true.
Proof.
  intros Oc. induction b as [|y b IH] using rev_ind; intros O H; [now rewrite app_nil_r|]. rewrite app_assoc in *. apply Forall_app in O. destruct O as (O & Oy). inversion Oy; subst. rewrite <- vertex_sum. apply flt_more; auto. now apply fsum_ok.
Qed.
Theorem C73_granted_vertices : forall fv ord g gw fuel cap plan kept,
  (forall x, stored_weight g gw x -> ok (fv x)) -> (forall l, Permutation (ord l) l) -> (forall d, Forall ok (cap d)) -> all_granted fv ord g gw fuel [None] cap plan ->
  cancel_f fv ord g gw fuel [None] cap plan = Some kept -> kept = plan.
Proof.
  intros fv ord g gw fuel cap plan kept Hw Ho Hc HG E. assert (H1 : vertices_once [None]). { intros [|i] [|j]; cbn; intros A B; auto; exfalso; try (destruct i; discriminate A); destruct j; discriminate B. }
  assert (G : forall pre post, plan = pre ++ post -> cancel_f fv ord g gw fuel [None] cap pre = Some pre).
  2:{ specialize (G plan [] (eq_sym (app_nil_r _))). congruence. }
  induction pre as [|(v, d) pre IH] using rev_ind; intros post ->; [reflexivity|]. destruct (cancel_prefix _ _ _ _ _ _ _ _ _ _ E) as (k & Ek). rewrite Ek. f_equal. specialize (IH ((v, d) :: post)). rewrite <- app_assoc in IH. specialize (IH eq_refl).
  unfold cancel_f in Ek, IH. rewrite foldM_app in Ek. destruct (foldM _ pre _) as [(s, K)|] eqn:Ep; cbn [obind] in IH; [|discriminate]. cbn [snd] in IH. inversion IH; subst K. cbn [obind foldM] in Ek.
  destruct (loop fv ord g gw fuel Ho [None] cap H1 pre _ _ _ _ (inv0 fv g gw fuel [None] cap Hc) Ep) as (I & _).
  destruct (cancel_step_f fv ord g gw fuel [None] cap (s, pre) (v, d)) as [(s', K')|] eqn:Es; cbn [obind] in Ek; [|discriminate]. cbn [snd] in Ek. inversion Ek; subst k.
  destruct (step fv ord g gw fuel Ho [None] cap H1 s pre v d s' K' I Es) as [(-> & _)|(-> & _ & i & c & Hd & O)]; [reflexivity|exfalso].
  pose proof (proj1 (Forall_forall _ _) (Hc d) c (nth_error_In _ _ Hd)) as Oc. destruct O as [(t & Hi & _)|(Hi & ws & W & F)]; [destruct i as [|[|i]]; discriminate Hi|]. destruct (HG d i _ c Hi Hd) as (r & Er & Fr). cbn [request_f] in Er.
  destruct (request_verts fv g gw d _ [] [] (Forall2_nil _) _ Er) as (w2 & W2 & ->). cbn [app] in W2. destruct (verts_prefix fv g gw d _ _ _ _ W W2) as (w3 & ->). rewrite (flt_prefix c ws w3 Oc) in Fr; [discriminate| |exact F].
  eapply vertex_weights_all; eauto.
Qed.
Print Assumptions C73_granted_vertices.

(** ** For edges that is not so: the weights 0.3, 0.2, 0.1 of three edges are requested as (0.3 + 0.2) + 0.1 = 0.6; the part grants exactly
    that, and the second vertex is dropped because 0.3 + (0.2 + 0.1) = 0.6000000000000001 *)
Definition gx_fv (x : Z) : b64 := if Z.eqb x 0 then f0 else fdiv (of_int x) (of_int 10).
Definition gx_fv' (x : Z) : b64 := if (Z.leb 1 x && Z.leb x 3)%bool then gx_fv x else f0.
Definition gx_g : option graph := build_part 0 true [1; 2]%Z [1; 1]%Z [([(100, [1]); (101, [2]); (102, [2]); (103, [1; 2; 5])], [3; 2; 1; 1])]%Z [(5, 1)]%Z.
Definition gx_plan : list (nat * Z) := [(1, 1%Z); (2, 1%Z)]%nat.
Lemma pos_ok x : fin x = true -> flt x f0 = false -> ok x.
Proof. intros F H. split; auto. rewrite (flt_ok x f0 F eq_refl), value_f0 in H. destruct (Rlt_bool_spec (value x) 0); [discriminate|auto]. Qed.
Lemma gx_ok x : ok (gx_fv' x).
Proof.
  unfold gx_fv'. destruct (Z.leb_spec 1 x), (Z.leb_spec x 3); cbn [andb]; try apply ok_f0. assert (C : (x = 1 \/ x = 2 \/ x = 3)%Z) by lia.
  destruct C as [->|[->| ->]]; apply pos_ok; vm_compute; reflexivity.
Qed.
Theorem C73_granted_edges_refuted : exists fv g plan r,
  gx_g = Some g /\ (forall x, ok (fv x)) /\ request_f fv (fun l => l) g None 20 1 plan (Some 0%nat) = Some r /\ ok r /\
  all_granted fv (fun l => l) g None 20 [Some 0%nat] (fun d => if Z.eqb d 1 then [r] else []) plan /\
  exists kept, cancel_f fv (fun l => l) g None 20 [Some 0%nat] (fun d => if Z.eqb d 1 then [r] else []) plan = Some kept /\ kept <> plan.
Proof.
  destruct gx_g as [g|] eqn:E; [|vm_compute in E; discriminate E]. exists gx_fv', g, gx_plan.
  destruct (request_f gx_fv' (fun l => l) g None 20 1 gx_plan (Some 0%nat)) as [r|] eqn:Er.
  2:{ exfalso. assert (X : match gx_g with Some g => match request_f gx_fv' (fun l => l) g None 20 1 gx_plan (Some 0%nat) with Some _ => true | None => false end | None => false end = true) by (vm_compute; reflexivity). rewrite E, Er in X. discriminate X. }
  exists r. assert (T : forall P : b64 -> bool, match gx_g with Some g => match request_f gx_fv' (fun l => l) g None 20 1 gx_plan (Some 0%nat) with Some r => P r | None => false end | None => false end = true -> P r = true) by (intros P X; rewrite E, Er in X; exact X).
  assert (Or : ok r). { apply pos_ok; [apply (T fin); vm_compute; reflexivity|]. apply negb_true_iff. apply (T (fun r => negb (flt r f0))). vm_compute. reflexivity. }
  split; [reflexivity|]. split; [apply gx_ok|]. split; [reflexivity|]. split; [exact Or|]. split.
  - intros d i dm c Hi Hd. destruct (Z.eqb_spec d 1) as [->|]; [|destruct i; discriminate Hd]. destruct i as [|[|i]]; try discriminate Hd. inversion Hi; subst dm. inversion Hd; subst c. exists r. split; [exact Er|]. destruct Or as (F & _). rewrite (flt_ok r r F F). apply Rlt_bool_false. lra.
  - exists [(1, 1%Z)]%nat. split; [|intros X; inversion X].
    assert (X : match gx_g with Some g => match request_f gx_fv' (fun l => l) g None 20 1 gx_plan (Some 0%nat) with Some r => match cancel_f gx_fv' (fun l => l) g None 20 [Some 0%nat] (fun d => if Z.eqb d 1 then [r] else []) gx_plan with Some [(a, b)] => Nat.eqb a 1 && Z.eqb b 1 | _ => false end | None => false end | None => false end%bool = true) by (vm_compute; reflexivity).
    rewrite E, Er in X. destruct (cancel_f _ _ _ _ _ _ _ _) as [[|(a, b) [|? ?]]|]; try discriminate X. apply andb_true_iff in X. destruct X as (A & B). apply Nat.eqb_eq in A. apply Z.eqb_eq in B. now subst.
Qed.
Print Assumptions C73_granted_edges_refuted.
(** the plan of C73_cancel_example, granted 16 for the edges and 10 for the vertices: its requests are 16 and 10, and all is kept *)
Definition gx_cap : Z -> list b64 := fun d => [of_int 16; of_int 10].
Example C73_granted_example : exists g, cx_g = Some g /\ whole_weights (fun x => of_int (ex_n x)) g None /\ small_caps gx_cap /\ vertices_once [Some 0%nat; None] /\
  all_granted (fun x => of_int (ex_n x)) (@rev nat) g None 20 [Some 0%nat; None] gx_cap cx_plan /\
  cancel_f (fun x => of_int (ex_n x)) (@rev nat) g None 20 [Some 0%nat; None] gx_cap cx_plan = Some cx_plan.
Proof.
  destruct C73_cancel_example as (g & E & Hw & _ & _ & _ & Ho & _). exists g. split; auto. split; auto.
  assert (Sc : small_caps gx_cap).
  { intros d. unfold gx_cap. assert (C : forall n, (0 <= n < 2 ^ 53)%Z -> ok (of_int n) /\ value (of_int n) < IZR (2 ^ 53)) by (intros n H; split; [apply int_ok, H|destruct (int_whole n H) as (_ & ->); apply IZR_lt, H]).
    constructor; [apply C; lia|constructor; [apply C; lia|constructor]]. }
  split; auto. split; auto.
  assert (G : forall d dm c b, cx_g = Some g -> b = match cx_g with Some g => match request_f (fun x => of_int (ex_n x)) (@rev nat) g None 20 d cx_plan dm with Some r => negb (flt c r) | None => false end | None => false end -> b = true -> exists r, request_f (fun x => of_int (ex_n x)) (@rev nat) g None 20 d cx_plan dm = Some r /\ flt c r = false).
  { intros d dm c b E0 -> X. rewrite E0 in X. destruct (request_f _ _ _ _ _ _ _ _) as [r|]; [|discriminate X]. exists r. split; auto. now apply negb_true_iff. }
  split.
  - intros d i dm c Hi Hd. destruct (Z.eq_dec d 1) as [->|Nd].
    + unfold gx_cap in Hd. destruct i as [|[|[|i]]]; try discriminate Hd; inversion Hi; inversion Hd; subst; (eapply G; [exact E|reflexivity|vm_compute; reflexivity]).
    + assert (Ne : Z.eqb 1 d = false) by (apply Z.eqb_neq; lia). exists f0. split.
      * unfold request_f, cx_plan. destruct dm as [t|]; cbn [foldM fst snd]; rewrite !Ne; cbn [obind]; reflexivity.
      * destruct (proj1 (Forall_forall _ _) (Sc d) c (nth_error_In _ _ Hd)) as ((F & P) & _). rewrite (flt_ok c f0 F (eq_refl : fin f0 = true)), value_f0. now apply Rlt_bool_false.
  - clear - E. vm_compute in E. inversion E; subst g. vm_compute. reflexivity.
Qed.

(** ** What is requested: the weight of what the plan brings, up to the rounding of its additions *)
Theorem C73_request : forall fv ord g gw fuel d plan dm r,
  (forall x, stored_weight g gw x -> ok (fv x)) -> (forall l, Permutation (ord l) l) -> request_f fv ord g gw fuel d plan dm = Some r ->
  exists n ws,
    match dm with
    | Some t => exists S, brought_edges g fuel t d plan S /\ edge_weights fv g S ws /\ n = length S
    | None => vertex_weights fv g gw d plan ws /\ n = length ws
    end /\
    (fin r = true -> (1 - u) ^ n * rsum (vals ws) <= value r <= (1 + u) ^ n * rsum (vals ws)) /\
    ((1 + u) ^ n * rsum (vals ws) < top -> fin r = true) /\
    (forall ns, Forall2 whole ws ns -> (zsum ns < 2 ^ 53)%Z -> value r = rsum (vals ws)).
Proof.
  intros fv ord g gw fuel d plan dm r Hw Ho Er.
  assert (G : forall ws, Forall ok ws -> r = fsum ws -> (fin r = true -> (1 - u) ^ length ws * rsum (vals ws) <= value r <= (1 + u) ^ length ws * rsum (vals ws)) /\ ((1 + u) ^ length ws * rsum (vals ws) < top -> fin r = true) /\ (forall ns, Forall2 whole ws ns -> (zsum ns < 2 ^ 53)%Z -> value r = rsum (vals ws))).
  { intros ws O ->. assert (P : Forall (fun x => 0 <= x) (vals ws)) by (unfold vals; rewrite Forall_map; eapply Forall_impl; [|exact O]; intros x X; apply X). split; [intros F; now apply fsum_bound|]. split; [intros T; apply fsum_finite; auto; eapply Forall_impl; [|exact O]; intros x X; apply X|].
    intros ns W T. assert (N : map Z.abs ns = ns). { clear - W O. induction W as [|x n l ns (_ & V) _ IH]; cbn [map]; auto. inversion O as [|? ? (_ & P) O']; subst. f_equal; auto. apply Z.abs_eq. apply le_IZR. lra. }
    destruct (fsum_whole ws ns W) as (_ & ->); [now rewrite N|]. clear - W. induction W as [|x n l ns (_ & V) _ IH]; [reflexivity|]. rewrite rsum_cons, V, <- IH. change (zsum (n :: ns)) with (n + zsum ns)%Z. apply plus_IZR. }
  destruct dm as [t|]; unfold request_f in Er.
  - destruct (obind_some _ _ _ Er) as (S2 & E2 & E3). assert (B0 : brought_edges g fuel t d [] []) by (split; [constructor|]; intros e; split; [intros []|intros (v0 & es & [] & _)]). destruct (request_set _ _ _ _ _ _ _ B0 _ E2) as (N2 & B2). cbn [app] in B2.
    destruct (set_weight_names _ _ _ _ _ E3) as (w2 & W2 & R). exists (length w2), w2. split; [|apply G; auto; apply (edge_weights_all fv g gw _ _ ok Hw W2)]. exists (ord S2). split; [|split; [exact W2|eapply edge_len; eauto]]. split.
    + eapply Permutation_NoDup; [apply Permutation_sym, Ho|exact N2].
    + intros e. rewrite <- B2. split; apply Permutation_in; [apply Ho|apply Permutation_sym, Ho].
  - destruct (request_verts fv g gw d _ [] [] (Forall2_nil _) _ Er) as (w2 & W2 & R). cbn [app] in W2. exists (length w2), w2. split; auto. apply G; auto. eapply vertex_weights_all; eauto.
Qed.
Print Assumptions C73_request.

(** ** With room for the rounding nothing is cancelled: any weights, any list of dimensions *)
Theorem C73_cancel_all_kept : forall fv ord g gw fuel dims cap plan kept,
  (forall x, stored_weight g gw x -> ok (fv x)) -> (forall l, Permutation (ord l) l) -> (forall d, Forall ok (cap d)) -> vertices_once dims ->
  (forall d i t c, nth_error dims i = Some (Some t) -> nth_error (cap d) i = Some c ->
     exists S ws, brought_edges g fuel t d plan S /\ edge_weights fv g S ws /\ (1 + u) ^ (length S + 1) * rsum (vals ws) <= value c) ->
  (forall d i c, nth_error dims i = Some None -> nth_error (cap d) i = Some c ->
     exists ws, vertex_weights fv g gw d plan ws /\ (1 + u) ^ length ws * rsum (vals ws) <= value c) ->
  cancel_f fv ord g gw fuel dims cap plan = Some kept -> kept = plan.
Proof.
  intros fv ord g gw fuel dims cap plan kept Hw Ho Hc H1 HE HV E. assert (G : forall pre post, plan = pre ++ post -> cancel_f fv ord g gw fuel dims cap pre = Some pre).
  2:{ specialize (G plan [] (eq_sym (app_nil_r _))). congruence. }
  induction pre as [|(v, d) pre IH] using rev_ind; intros post ->; [reflexivity|]. destruct (cancel_prefix _ _ _ _ _ _ _ _ _ _ E) as (k & Ek). rewrite Ek. f_equal.
  destruct (C73_cancel_greedy fv ord g gw fuel dims cap pre v d k Hw Ho Hc H1 Ek) as (k0 & E0 & C). rewrite (IH ((v, d) :: post)) in E0 by now rewrite <- app_assoc. inversion E0; subst k0. destruct C as [C|(-> & i & c & Hd & C)]; [exact C|exfalso].
  destruct C as [(t & S & ws & Hi & (N & B) & W & L)|(ws & Hi & W & L)].
  - destruct (HE d i t c Hi Hd) as (S2 & w2 & (N2 & B2) & W2 & L2). assert (I : incl S S2) by (intros e He; apply B2, brought_mono, B, He). pose proof (edge_weights_all fv g gw _ _ ok Hw W2) as O2.
    pose proof (rsum_incl fv g S S2 ws w2 N I W W2 O2) as R. pose proof (pow_mono_hi (length S + 1) (length S2 + 1)) as P. assert (Ls : (length S + 1 <= length S2 + 1)%nat) by (pose proof (NoDup_incl_length N I); lia). specialize (P Ls).
    pose proof (rsum_vals_ge0 _ (edge_weights_all fv g gw _ _ ok Hw W)) as R0. pose proof (pow_ge1 (length S + 1)) as P1.
    assert (X : (1 + u) ^ (length S + 1) * rsum (vals ws) <= (1 + u) ^ (length S2 + 1) * rsum (vals w2)) by (apply Rmult_le_compat; lra). lra.
  - destruct (HV d i c Hi Hd) as (w2 & W2 & L2). destruct (verts_prefix fv g gw d _ _ _ _ W W2) as (w3 & ->). pose proof (vertex_weights_all fv g gw d _ _ ok Hw W2) as O. apply Forall_app in O. destruct O as (O1 & O3).
    pose proof (rsum_vals_ge0 _ O1) as R0. pose proof (rsum_vals_ge0 _ O3) as R3. rewrite vals_app, rsum_app, app_length in L2. pose proof (pow_mono_hi (length ws) (length ws + length w3) ltac:(lia)) as P. pose proof (pow_ge1 (length ws)) as P1.
    assert (X : (1 + u) ^ length ws * rsum (vals ws) <= (1 + u) ^ (length ws + length w3) * (rsum (vals ws) + rsum (vals w3))) by (apply Rmult_le_compat; lra). lra.
Qed.
Print Assumptions C73_cancel_all_kept.
