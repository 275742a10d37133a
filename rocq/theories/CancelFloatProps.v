(** C73 continued: cancel keeps, for every list of completed dimensions, as much as was granted - in machine doubles. *)
From Coq Require Import Reals Lra Psatz.
From Flocq Require Import Core BinarySingleNaN.
From Verif Require Import Base GraphModel Comm TagModel ConnModel GraphSpec SelectorModel SelectorProofs.
From Verif Require Import FloatModel FloatSpec FloatProofs FloatProofs2 FloatProofs3 FloatProofs4 FloatProps.
From Verif Require Import CancelFloatModel CancelFloatSpec CancelFloatProofs CancelFloatProofs2.
Local Open Scope R_scope.

Lemma edge_weights_all fv g gw S ws (P : b64 -> Prop) : (forall x, stored_weight g gw x -> P (fv x)) -> edge_weights fv g S ws -> Forall P ws.
Proof. intros H W. unfold edge_weights in W. induction W as [|e w S ws (n & E & ->) _ IH]; constructor; auto. apply H. exists e. auto. Qed.
Lemma vertex_weights_all fv g gw d K ws (P : b64 -> Prop) : (forall x, stored_weight g gw x -> P (fv x)) -> vertex_weights fv g gw d K ws -> Forall P ws.
Proof.
  intros H W. unfold vertex_weights in W. induction W as [|m w S ws E _ IH]; constructor; auto. rewrite wname_f in E. destruct (wname g gw (fst m)) as [x|] eqn:Ex; cbn [option_map] in E; inversion E; subst. apply H. eapply wname_stored; eauto.
Qed.
Lemma edge_len fv g S ws : edge_weights fv g S ws -> length ws = length S.
Proof. unfold edge_weights. intros H. induction H; cbn; auto. Qed.
Lemma ints ws : Forall (fun w => exists n, (0 <= n)%Z /\ whole w n) ws -> exists ns, Forall2 whole ws ns /\ Forall (fun k => (0 <= k)%Z) ns.
Proof. induction 1 as [|w ws (n & P & W) _ (ns & A & B)]; [exists []; split; constructor|exists (n :: ns); split; constructor; auto]. Qed.

Section Cancel.
Variables (fv : Z -> b64) (ord : list nat -> list nat) (g : graph) (gw : option (arr Z)) (fuel : nat) (dims : list (option nat)) (cap : Z -> list b64).

(** ** What is kept fits what was granted, up to the rounding of one addition per edge or vertex *)
Theorem C73_cancel : forall plan kept,
  (forall x, stored_weight g gw x -> ok (fv x)) -> (forall l, Permutation (ord l) l) -> (forall d, Forall ok (cap d)) -> vertices_once dims ->
  cancel_f fv ord g gw fuel dims cap plan = Some kept ->
  sub kept plan /\
  (forall d i t c, nth_error dims i = Some (Some t) -> nth_error (cap d) i = Some c ->
     exists S ws, brought_edges g fuel t d kept S /\ edge_weights fv g S ws /\ (1 - u) ^ (length S + 1) * rsum (vals ws) <= value c) /\
  (forall d i c, nth_error dims i = Some None -> nth_error (cap d) i = Some c ->
     exists ws, vertex_weights fv g gw d kept ws /\ (1 - u) ^ length ws * rsum (vals ws) <= value c).
Proof.
  intros plan kept Hw Ho Hc H1 E. unfold cancel_f in E. destruct (obind_some _ _ _ E) as ((s, K) & E1 & E2). inversion E2; subst kept. clear E E2.
  destruct (loop fv ord g gw fuel Ho dims cap H1 plan _ _ _ _ (inv0 fv g gw fuel dims cap Hc) E1) as (I & l & -> & Sb). cbn [app snd] in *. split; auto. split.
  - intros d i t c Hi Hd. destruct (i_edg _ _ _ _ _ _ _ _ I d i t c Hi Hd) as (L & a & b & B & W & F). exists L, (a ++ b). split; auto. split; auto.
    pose proof (edge_weights_all fv g gw L (a ++ b) ok Hw W) as O. apply Forall_app in O. destruct O as (Oa & Ob). pose proof (proj1 (Forall_forall _ _) (Hc d) c (nth_error_In _ _ Hd)) as Oc.
    rewrite <- (edge_len _ _ _ _ W), Nat.add_1_r. apply (edge_test c a b Oc Oa Ob). exact F.
  - intros d i c Hi Hd. destruct (i_vrt _ _ _ _ _ _ _ _ I d i c Hi Hd) as (ws & W & F). exists ws. split; auto.
    pose proof (proj1 (Forall_forall _ _) (Hc d) c (nth_error_In _ _ Hd)) as Oc. apply (vertex_test c ws Oc); auto. eapply vertex_weights_all; eauto.
Qed.

(** ** Nothing is dropped without need: a vertex that does not stay would, with what is kept before it, weigh more than was granted in
    some dimension (up to rounding), and the plan is treated in its order *)
Theorem C73_cancel_greedy : forall plan v d kept',
  (forall x, stored_weight g gw x -> ok (fv x)) -> (forall l, Permutation (ord l) l) -> (forall d, Forall ok (cap d)) -> vertices_once dims ->
  cancel_f fv ord g gw fuel dims cap (plan ++ [(v, d)]) = Some kept' ->
  exists kept, cancel_f fv ord g gw fuel dims cap plan = Some kept /\
    (kept' = kept ++ [(v, d)] \/
     (kept' = kept /\ exists i c, nth_error (cap d) i = Some c /\
        ((exists t S ws, nth_error dims i = Some (Some t) /\ brought_edges g fuel t d (kept ++ [(v, d)]) S /\ edge_weights fv g S ws /\ value c < (1 + u) ^ (length S + 1) * rsum (vals ws)) \/
         (exists ws, nth_error dims i = Some None /\ vertex_weights fv g gw d (kept ++ [(v, d)]) ws /\ value c < (1 + u) ^ length ws * rsum (vals ws))))).
Proof.
  intros plan v d kept' Hw Ho Hc H1 E. unfold cancel_f in *. destruct (obind_some _ _ _ E) as ((s', K') & E1 & E2). inversion E2; subst kept'. clear E E2.
  rewrite foldM_app in E1. destruct (obind_some _ _ _ E1) as ((s, K) & Ea & Eb). cbn [foldM] in Eb. destruct (obind_some _ _ _ Eb) as (x & Es & Ex). inversion Ex; subst x. clear Ex Eb E1.
  exists K. split; [rewrite Ea; reflexivity|]. destruct (loop fv ord g gw fuel Ho dims cap H1 plan _ _ _ _ (inv0 fv g gw fuel dims cap Hc) Ea) as (I & _).
  cbn [snd]. destruct (step fv ord g gw fuel Ho dims cap H1 s K v d s' K' I Es) as [(-> & _)|(-> & _ & i & c & Hd & O)]; [now left|right]. split; auto. exists i, c. split; auto.
  pose proof (proj1 (Forall_forall _ _) (Hc d) c (nth_error_In _ _ Hd)) as Oc. destruct O as [(t & Hi & L & a & b & B & W & F)|(Hi & ws & W & F)].
  - left. exists t, L, (a ++ b). split; auto. split; auto. split; auto. pose proof (edge_weights_all fv g gw L (a ++ b) ok Hw W) as O. apply Forall_app in O. destruct O as (Oa & Ob).
    rewrite <- (edge_len _ _ _ _ W), Nat.add_1_r. apply (edge_test c a b Oc Oa Ob). exact F.
  - right. exists ws. split; auto. split; auto. apply (vertex_test c ws Oc); auto. eapply vertex_weights_all; eauto.
Qed.

(** ** Whole-number weights: no rounding at all, whatever the sums *)
Definition whole_weights : Prop := forall x, stored_weight g gw x -> exists n, (0 <= n)%Z /\ whole (fv x) n.
Definition small_caps : Prop := forall d, Forall (fun c => ok c /\ value c < IZR (2 ^ 53)) (cap d).
Lemma whole_ok_all : whole_weights -> forall x, stored_weight g gw x -> ok (fv x).
Proof. intros H x Hx. destruct (H x Hx) as (n & P & F & V). split; auto. rewrite V. now apply IZR_le. Qed.
Lemma caps_ok : small_caps -> forall d, Forall ok (cap d).
Proof. intros H d. eapply Forall_impl; [|apply H]. intros c C. apply C. Qed.
Theorem C73_cancel_whole : forall plan kept,
  whole_weights -> (forall l, Permutation (ord l) l) -> small_caps -> vertices_once dims ->
  cancel_f fv ord g gw fuel dims cap plan = Some kept ->
  sub kept plan /\
  (forall d i t c, nth_error dims i = Some (Some t) -> nth_error (cap d) i = Some c ->
     exists S ws, brought_edges g fuel t d kept S /\ edge_weights fv g S ws /\ rsum (vals ws) <= value c) /\
  (forall d i c, nth_error dims i = Some None -> nth_error (cap d) i = Some c ->
     exists ws, vertex_weights fv g gw d kept ws /\ rsum (vals ws) <= value c).
Proof.
  intros plan kept Hw Ho Hc H1 E. unfold cancel_f in E. destruct (obind_some _ _ _ E) as ((s, K) & E1 & E2). inversion E2; subst kept. clear E E2.
  destruct (loop fv ord g gw fuel Ho dims cap H1 plan _ _ _ _ (inv0 fv g gw fuel dims cap (caps_ok Hc)) E1) as (I & l & -> & Sb). cbn [app snd] in *. split; auto. split.
  - intros d i t c Hi Hd. destruct (i_edg _ _ _ _ _ _ _ _ I d i t c Hi Hd) as (L & a & b & B & W & F). exists L, (a ++ b). split; auto. split; auto.
    destruct (ints _ (edge_weights_all fv g gw L (a ++ b) _ Hw W)) as (ns & Wn & Nn). destruct (proj1 (Forall_forall _ _) (Hc d) c (nth_error_In _ _ Hd)) as (Oc & Tc).
    rewrite (edge_test_whole c a b ns Oc Tc Wn Nn) in F. destruct (Rlt_bool_spec (value c) (rsum (vals (a ++ b)))); [discriminate|auto].
  - intros d i c Hi Hd. destruct (i_vrt _ _ _ _ _ _ _ _ I d i c Hi Hd) as (ws & W & F). exists ws. split; auto.
    destruct (ints _ (vertex_weights_all fv g gw d _ ws _ Hw W)) as (ns & Wn & Nn). destruct (proj1 (Forall_forall _ _) (Hc d) c (nth_error_In _ _ Hd)) as (Oc & Tc).
    rewrite (vertex_test_whole c ws ns Oc Tc Wn Nn) in F. destruct (Rlt_bool_spec (value c) (rsum (vals ws))); [discriminate|auto].
Qed.
Theorem C73_cancel_greedy_whole : forall plan v d kept',
  whole_weights -> (forall l, Permutation (ord l) l) -> small_caps -> vertices_once dims ->
  cancel_f fv ord g gw fuel dims cap (plan ++ [(v, d)]) = Some kept' ->
  exists kept, cancel_f fv ord g gw fuel dims cap plan = Some kept /\
    (kept' = kept ++ [(v, d)] \/
     (kept' = kept /\ exists i c, nth_error (cap d) i = Some c /\
        ((exists t S ws, nth_error dims i = Some (Some t) /\ brought_edges g fuel t d (kept ++ [(v, d)]) S /\ edge_weights fv g S ws /\ value c < rsum (vals ws)) \/
         (exists ws, nth_error dims i = Some None /\ vertex_weights fv g gw d (kept ++ [(v, d)]) ws /\ value c < rsum (vals ws))))).
Proof.
  intros plan v d kept' Hw Ho Hc H1 E. unfold cancel_f in *. destruct (obind_some _ _ _ E) as ((s', K') & E1 & E2). inversion E2; subst kept'. clear E E2.
  rewrite foldM_app in E1. destruct (obind_some _ _ _ E1) as ((s, K) & Ea & Eb). cbn [foldM] in Eb. destruct (obind_some _ _ _ Eb) as (x & Es & Ex). inversion Ex; subst x. clear Ex Eb E1.
  exists K. split; [rewrite Ea; reflexivity|]. destruct (loop fv ord g gw fuel Ho dims cap H1 plan _ _ _ _ (inv0 fv g gw fuel dims cap (caps_ok Hc)) Ea) as (I & _).
  cbn [snd]. destruct (step fv ord g gw fuel Ho dims cap H1 s K v d s' K' I Es) as [(-> & _)|(-> & _ & i & c & Hd & O)]; [now left|right]. split; auto. exists i, c. split; auto.
  destruct (proj1 (Forall_forall _ _) (Hc d) c (nth_error_In _ _ Hd)) as (Oc & Tc). destruct O as [(t & Hi & L & a & b & B & W & F)|(Hi & ws & W & F)].
  - left. exists t, L, (a ++ b). split; auto. split; auto. split; auto. destruct (ints _ (edge_weights_all fv g gw L (a ++ b) _ Hw W)) as (ns & Wn & Nn).
    rewrite (edge_test_whole c a b ns Oc Tc Wn Nn) in F. destruct (Rlt_bool_spec (value c) (rsum (vals (a ++ b)))); [auto|discriminate].
  - right. exists ws. split; auto. split; auto. destruct (ints _ (vertex_weights_all fv g gw d _ ws _ Hw W)) as (ns & Wn & Nn).
    rewrite (vertex_test_whole c ws ns Oc Tc Wn Nn) in F. destruct (Rlt_bool_spec (value c) (rsum (vals ws))); [auto|discriminate].
Qed.
End Cancel.
Print Assumptions C73_cancel.
Print Assumptions C73_cancel_greedy.
Print Assumptions C73_cancel_whole.
Print Assumptions C73_cancel_greedy_whole.

(** ** The same for the vertices alone: the loop goes on after a vertex that does not fit *)
Theorem C73_keep_greedy : forall cap l x, ok cap -> Forall ok l -> ok x -> let k := keep_f cap f0 l in
  (keep_f cap f0 (l ++ [x]) = k ++ [x] /\ (1 - u) ^ S (length k) * rsum (vals (k ++ [x])) <= value cap) \/
  (keep_f cap f0 (l ++ [x]) = k /\ value cap < (1 + u) ^ S (length k) * rsum (vals (k ++ [x]))).
Proof.
  intros cap l x Oc Ol Ox. cbv zeta. assert (G : forall w, keep_f cap w (l ++ [x]) = keep_f cap w l ++ (if flt cap (fadd (fold_left fadd (keep_f cap w l) w) x) then [] else [x])).
  { clear. induction l as [|y l IH]; intros w; cbn [app keep_f fold_left]; [now destruct (flt _ _)|]. destruct (flt cap (fadd w y)); [apply IH|]. cbn [app fold_left]. now rewrite IH. }
  rewrite G. change (fold_left fadd (keep_f cap f0 l) f0) with (fsum (keep_f cap f0 l)). rewrite vertex_sum.
  assert (Ok : Forall ok (keep_f cap f0 l ++ [x])) by (apply Forall_app; split; [now apply keep_ok|now constructor]).
  pose proof (vertex_test cap _ Oc Ok) as (T1 & T2). cbv zeta in T1, T2. rewrite app_length in T1, T2. cbn [length] in T1, T2. rewrite Nat.add_1_r in T1, T2.
  destruct (flt cap _); [right; rewrite app_nil_r; auto|left; auto].
Qed.
Print Assumptions C73_keep_greedy.

(** ** Every plan whose edges and weights can be read is treated to its end *)
Local Open Scope nat_scope.
Section Total.
Variables (fv : Z -> b64) (ord : list nat -> list nat) (g : graph) (gw : option (arr Z)) (fuel : nat) (dims : list (option nat)) (cap : Z -> list b64).
Definition readable (m : nat * Z) : Prop :=
  forall dm, In dm dims -> match dm with
  | None => exists w, weight_of_f fv g gw (fst m) = Some w
  | Some t => exists es, vertex_edges g (fst m) t fuel = Some es /\ forall e, In e es -> (exists r, isResidentOn g e (snd m) = Some r) /\ exists n, eweight g e = Some n
  end.
Definition weighed (S : list nat) : Prop := forall e, In e S -> exists n, eweight g e = Some n.
Lemma set_weight_total S : (forall l, Permutation (ord l) l) -> weighed S -> exists w, set_weight_f fv ord g S = Some w.
Proof.
  intros Ho H. unfold set_weight_f. assert (H' : weighed (ord S)) by (intros e He; apply H; eapply Permutation_in; [apply Ho|exact He]). generalize f0. revert H'. generalize (ord S). intros l. induction l as [|e l IH]; intros H' w; cbn [foldM]; [eauto|].
  destruct (H' e) as (n & ->); [now left|]. cbn [obind]. apply IH. intros x Hx. apply H'. now right.
Qed.
Lemma temp_total v d t S es : vertex_edges g v t fuel = Some es -> (forall e, In e es -> exists r, isResidentOn g e d = Some r) -> exists tmp, temp_interior g fuel v d t S = Some tmp.
Proof.
  intros He Hr. unfold temp_interior. rewrite He. cbn [obind]. clear He. generalize (@nil nat). revert Hr. induction es as [|e es IH]; intros Hr a; cbn [foldM]; [eauto|]. destruct (smem S e); cbn [obind]; [apply IH; intros x Hx; apply Hr; now right|].
  destruct (Hr e) as (r & ->); [now left|]. cbn [obind]. apply IH. intros x Hx. apply Hr. now right.
Qed.
Theorem C73_cancel_defined : forall plan, (forall l, Permutation (ord l) l) -> (forall d, length (cap d) = length dims) -> Forall readable plan ->
  exists kept, cancel_f fv ord g gw fuel dims cap plan = Some kept.
Proof.
  intros plan Ho Hl Hp. unfold cancel_f.
  assert (G : forall plan s K, Forall readable plan -> (forall d, length (fst (s d)) = length dims) -> (forall d S, In S (fst (s d)) -> weighed S) -> exists r, foldM (cancel_step_f fv ord g gw fuel dims cap) plan (s, K) = Some r).
  { clear plan Hp. induction plan as [|(v, d) plan IH]; intros s K Hp H1 H2; cbn [foldM]; [eauto|]. inversion Hp as [|? ? Rv Hp']; subst. cbn [cancel_step_f]. rewrite Hl, Nat.eqb_refl.
    assert (M : forall l : list (option nat * b64 * list nat), (forall x, In x l -> In (fst (fst x)) dims /\ weighed (snd x)) -> exists r, mapM (cancel_dim_f fv ord g gw fuel v d (snd (s d))) l = Some r /\ forall y, In y r -> weighed (snd y)).
    { induction l as [|((dm, c), S) l IHl]; intros Hx; cbn [mapM]; [exists []; split; [reflexivity|intros ? []]|]. destruct (IHl (fun x Hi => Hx x (or_intror Hi))) as (r & Er & Wr). rewrite Er. destruct (Hx _ (or_introl eq_refl)) as (Hd & Ws). cbn [fst snd] in Hd, Ws. specialize (Rv dm Hd). cbn [fst snd] in Rv.
      assert (X : exists y, cancel_dim_f fv ord g gw fuel v d (snd (s d)) (dm, c, S) = Some y /\ weighed (snd y)).
      { unfold cancel_dim_f. cbn [fst snd]. destruct dm as [t|].
        - destruct Rv as (es & Ees & Res). destruct (temp_total v d t S es Ees) as (tmp & Et); [intros e He; apply (Res e He)|]. rewrite Et. cbn [obind]. destruct (temp_inv fv _ _ _ _ _ _ _ Et) as (es' & E' & _ & It). assert (es' = es) by congruence. subst es'.
          assert (Wt : weighed tmp) by (intros e He; apply It in He; apply Res; tauto). destruct (set_weight_total S Ho Ws) as (a & ->). destruct (set_weight_total tmp Ho Wt) as (b & ->). cbn [obind]. eexists. split; [reflexivity|]. cbn [snd].
          intros e He. change (fold_left sadd (ord tmp) S) with (addall S (ord tmp)) in He. apply addall_in in He as [He|He]; [now apply Ws|]. apply Wt. eapply Permutation_in; [apply Ho|exact He].
        - destruct Rv as (w & ->). cbn [obind]. eexists. split; [reflexivity|exact Ws]. }
      destruct X as (y & -> & Wy). cbn [obind]. exists (y :: r). split; [reflexivity|]. intros z [<-|Hz]; auto. }
    destruct (M (combine (combine dims (cap d)) (fst (s d)))) as (r & Er & Wr).
    { intros ((dm, c), S) Hi. apply in_combine_l in Hi as Ha. apply in_combine_r in Hi. apply in_combine_l in Ha. cbn [fst snd]. split; auto. eapply H2; eauto. }
    rewrite Er. cbn [obind]. destruct (forallb fst r); cbn [obind]; [|apply IH; auto].
    assert (V : forall l vw, incl l dims -> exists vw', foldM (cancel_weight_f fv g gw v) l vw = Some vw').
    { induction l as [|dm l IHl]; intros vw Hi; cbn [foldM]; [eauto|]. assert (Hd : In dm dims) by (apply Hi; now left). specialize (Rv dm Hd). cbn [fst] in Rv. destruct dm as [t|]; cbn [cancel_weight_f].
      - cbn [obind]. apply IHl. intros x Hx. apply Hi. now right.
      - destruct Rv as (w & ->). cbn [obind]. apply IHl. intros x Hx. apply Hi. now right. }
    destruct (V dims (snd (s d)) (incl_refl _)) as (vw & ->). cbn [obind]. apply IH; auto.
    - intros d0. destruct (Z.eqb d0 d); [|apply H1]. cbn [fst]. rewrite map_length, (mapM_length _ _ _ _ _ Er), !combine_length, H1, Hl. lia.
    - intros d0 S. destruct (Z.eqb d0 d); [|apply H2]. cbn [fst]. intros Hi. apply in_map_iff in Hi as (y & <- & Hy). now apply Wr. }
  destruct (G plan (fun _ => (map (fun _ => []) dims, f0)) [] Hp) as (r & ->).
  - intros d. cbn [fst]. apply map_length.
  - intros d S Hi. cbn [fst] in Hi. apply in_map_iff in Hi as (x & <- & _). intros e [].
  - cbn [obind]. eauto.
Qed.
End Total.
Local Open Scope R_scope.
Print Assumptions C73_cancel_defined.

(** four vertices, three edges of weight 5, 7, 4 that part 1 does not hold and one it holds: of the plan 1, 2, 4, 3 the first brings two edges of weight 12, the second does
    not fit, the third brings no new edge, the fourth does not fit *)
Definition cx_g : option graph := build_part 0 true [1; 2; 3; 4]%Z [2; 3; 4; 1]%Z [([(100, [1; 2; 4]); (101, [2; 3; 5]); (102, [1; 3]); (103, [2; 3])], [5; 6; 7; 4])]%Z [(5, 1)]%Z.
Definition cx_plan : list (nat * Z) := [(1, 1%Z); (2, 1%Z); (4, 1%Z); (3, 1%Z)]%nat.
Definition cx_cap : Z -> list b64 := fun _ => [of_int 12; of_int 5].
Example C73_cancel_example : exists g, cx_g = Some g /\ whole_weights (fun x => of_int (ex_n x)) g None /\ (forall x, stored_weight g None x -> ok (of_int (ex_n x))) /\
  (forall l : list nat, Permutation (rev l) l) /\ small_caps cx_cap /\ vertices_once [Some 0%nat; None] /\
  (forall d, length (cx_cap d) = 2%nat) /\ Forall (readable (fun x => of_int (ex_n x)) g None 20 [Some 0%nat; None]) cx_plan /\
  cancel_f (fun x => of_int (ex_n x)) (@rev nat) g None 20 [Some 0%nat; None] cx_cap cx_plan = Some [(1, 1%Z); (4, 1%Z)]%nat.
Proof.
  destruct cx_g as [g|] eqn:E; [|vm_compute in E; discriminate]. assert (B : forall x, (0 <= ex_n x < 2 ^ 53)%Z) by (intros x; unfold ex_n; pose proof (Z.mod_pos_bound x 1000 eq_refl); lia).
  exists g. split; [reflexivity|]. split; [intros x _; exists (ex_n x); split; [apply B|apply int_whole, B]|]. split; [intros x _; apply int_ok, B|]. split; [intros l; apply Permutation_sym, Permutation_rev|]. split; [|split].
  - intros d. unfold cx_cap. assert (C : forall n, (0 <= n < 2 ^ 53)%Z -> ok (of_int n) /\ value (of_int n) < IZR (2 ^ 53)) by (intros n H; split; [apply int_ok, H|destruct (int_whole n H) as (_ & ->); apply IZR_lt, H]).
    constructor; [apply C; lia|constructor; [apply C; lia|constructor]].
  - clear E B. intros [|[|i]] [|[|j]]; cbn; intros H1 H2; try discriminate; auto; try (destruct i; discriminate); destruct j; discriminate.
  - split; [reflexivity|]. split.
    + clear B. assert (Rd : forall v, In v [1; 2; 4; 3]%nat -> readable (fun x => of_int (ex_n x)) g None 20 [Some 0%nat; None] (v, 1%Z)).
      { intros v Hv dm [<-|[<-|[]]]; cbn [fst snd].
        - assert (C : exists es, vertex_edges g v 0 20 = Some es /\ forallb (fun e => match isResidentOn g e 1, eweight g e with Some _, Some _ => true | _, _ => false end) es = true).
          { vm_compute in E. inversion E; subst g. clear E. repeat (destruct Hv as [<-|Hv]; [eexists; split; vm_compute; reflexivity|]). destruct Hv. }
          destruct C as (es & E1 & E2). exists es. split; auto. intros e He. rewrite forallb_forall in E2. specialize (E2 e He). destruct (isResidentOn g e 1); [|discriminate E2]. destruct (eweight g e); [|discriminate E2]. eauto.
        - assert (C : exists x, wname g None v = Some x).
          { vm_compute in E. inversion E; subst g. clear E. repeat (destruct Hv as [<-|Hv]; [eexists; vm_compute; reflexivity|]). destruct Hv. }
          destruct C as (x & Ex). exists (of_int (ex_n x)). now rewrite wname_f, Ex. }
      unfold cx_plan. repeat (apply Forall_cons; [apply Rd; cbn; tauto|]). constructor.
    + clear B. vm_compute in E. inversion E; subst g. vm_compute. reflexivity.
Qed.
