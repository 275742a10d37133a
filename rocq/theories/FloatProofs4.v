(** acceptWeight, cancel and both together. *)
From Coq Require Import Reals Lra Psatz Qreals.
From Flocq Require Import Core BinarySingleNaN Relative.
From Verif Require Import Base GraphModel Comm TagModel ConnModel MetricsModel.
From Verif Require Import FloatModel FloatSpec FloatProofs FloatProofs3.
Local Open Scope R_scope.

Lemma fsub_fin a w : ok a -> ok w -> fin (fsub a w) = true /\ value (fsub a w) = rnd (value a - value w).
Proof.
  intros (Fa & Pa) (Fw & Pw). destruct (Rle_lt_dec (value w) (value a)) as [L|L]; [destruct (fsub_between a w Fa Fw) as (F & V & _); auto|].
  destruct (fsub_ok a w Fa Fw) as (V & F); auto. apply Rabs_lt. pose proof (value_lt_top w) as T. rewrite Rabs_pos_eq in T by auto. split.
  - eapply Rlt_le_trans; [apply Ropp_lt_contravar; exact T|]. apply rnd_ge_fmt; [apply generic_format_opp, fmt_value|lra].
  - eapply Rle_lt_trans; [|exact T]. apply rnd_le_fmt; [apply fmt_value|lra].
Qed.
Lemma availability_nth lims ws i lim w : nth_error lims i = Some lim -> nth_error ws i = Some w -> nth_error (snd (availability_f lims ws)) i = Some (fsub lim w).
Proof. intros H1 H2. unfold availability_f. cbn [snd]. exact (nth_combine _ _ _ _ _ _ H1 H2). Qed.
Lemma availability_inv lims ws i a : length lims = length ws -> nth_error (snd (availability_f lims ws)) i = Some a -> exists lim w, nth_error lims i = Some lim /\ nth_error ws i = Some w /\ a = fsub lim w.
Proof.
  intros LL H. assert (Li : (i < length lims)%nat) by (unfold availability_f in H; cbn [snd] in H; (assert (X : nth_error (map (fun x => fsub (fst x) (snd x)) (combine lims ws)) i <> None) by congruence; apply nth_error_Some in X; rewrite map_length, combine_length in X; lia)).
  destruct (nth_error lims i) as [lim|] eqn:E1; [|apply nth_error_None in E1; lia]. destruct (nth_error ws i) as [w|] eqn:E2; [|apply nth_error_None in E2; lia]. rewrite (availability_nth _ _ _ _ _ E1 E2) in H. inversion H. eauto.
Qed.
Lemma accept_false inc avail acc : exists tail, fold_left accept_step_f inc ((false, avail), acc) = ((false, avail), acc ++ tail) /\ map fst tail = map fst inc /\ map (fun m => length (snd m)) tail = map (fun m => length (snd m)) inc /\ Forall (fun m => Forall (eq f0) (snd m)) tail.
Proof.
  revert acc. induction inc as [|m inc IH]; intros acc; cbn [fold_left]; [exists []; rewrite app_nil_r; auto|]. cbn [accept_step_f]. destruct (IH (acc ++ [(fst m, map (fun _ => f0) (snd m))])) as (tail & -> & E1 & E2 & E3).
  exists ((fst m, map (fun _ => f0) (snd m)) :: tail). rewrite <- app_assoc. split; [reflexivity|]. cbn [map fst snd]. rewrite map_length. split; [now f_equal|]. split; [now f_equal|]. constructor; auto. cbn [snd]. apply Forall_forall. intros x Hx. apply in_map_iff in Hx. destruct Hx as (? & <- & _). reflexivity.
Qed.
Lemma granted_zero tail i : Forall (fun m => Forall (eq f0) (snd m)) tail -> granted tail i = 0.
Proof.
  unfold granted. induction 1 as [|m tail H _ IH]; cbn [map rsum fold_right]; auto. unfold rsum in IH. rewrite IH. destruct (nth_error (snd m) i) as [x|] eqn:E; [|lra]. rewrite <- (proj1 (Forall_forall _ _) H x (nth_error_In _ _ E)), value_f0. lra.
Qed.
(** the answers, with any invariant of the amounts *)
Lemma accept_inv (P : nat -> nat -> R -> R -> Prop) lims ws inc : length lims = length ws -> Forall ok lims -> Forall ok ws -> Forall (fun m => length (snd m) = length lims /\ Forall ok (snd m)) inc ->
  (forall j i t a w, P j i t (value a) -> ok a -> ok w -> value w <= value a -> (w = a \/ exists m ws, In m inc /\ snd m = ws /\ nth_error ws i = Some w) -> P (S j) i (t + value w) (value (fsub a w))) ->
  (forall j i t a, P j i t a -> P (S j) i t a) ->
  (forall i a, nth_error (snd (availability_f lims ws)) i = Some a -> 0 <= value a -> P 0%nat i 0 (value a)) ->
  let answers := accept_f (availability_f lims ws) inc in
  map fst answers = map fst inc /\ Forall (fun m => length (snd m) = length lims /\ Forall ok (snd m)) answers /\
  forall i, (i < length lims)%nat -> granted answers i = 0 \/ exists a b, nth_error (snd (availability_f lims ws)) i = Some a /\ 0 <= value a /\ 0 <= b /\ P (length inc) i (granted answers i) b.
Proof.
  intros LL OL OW HI HS HZ H0. cbv zeta. unfold accept_f. destruct (availability_f lims ws) as (is, avail) eqn:EA. cbn [snd] in H0 |- *.
  assert (LA : length avail = length lims) by (unfold availability_f in EA; inversion EA; subst; rewrite map_length, combine_length; lia).
  assert (FA : forall i a, nth_error avail i = Some a -> fin a = true).
  { intros i a Ha. destruct (availability_inv lims ws i a LL) as (lim & w & E1 & E2 & ->); [now rewrite EA|]. apply fsub_fin; [eapply Forall_forall; [exact OL|eapply nth_error_In; eauto]|eapply Forall_forall; [exact OW|eapply nth_error_In; eauto]]. }
  assert (EI : is = forallb (fun a => negb (flt a f0)) avail) by (unfold availability_f in EA; now inversion EA). destruct is.
  - assert (OA : Forall ok avail).
    { apply Forall_forall. intros a Ha. destruct (In_nth_error _ _ Ha) as (i & Hi). symmetry in EI. rewrite forallb_forall in EI. specialize (EI a Ha). apply negb_true_iff in EI. pose proof (FA i a Hi) as F. rewrite (flt_ok a f0 F (eq_refl : fin f0 = true)), value_f0 in EI. destruct (Rlt_bool_spec (value a) 0); [discriminate|]. split; auto. }
    pose proof (accept_fold P inc true avail [] 0%nat HS HZ OA) as A. rewrite LA in A. destruct (fold_left accept_step_f inc _) as ((is', avail'), acc'). cbn [snd].
    destruct A as (A1 & A2 & A3 & tail & -> & A4 & A5); auto.
    { intros i a Ha. apply H0; auto. apply (proj1 (Forall_forall _ _) OA a (nth_error_In _ _ Ha)). }
    cbn [app] in *. split; auto. split; auto. intros i Li. right. destruct (nth_error avail i) as [a|] eqn:Ea; [|apply nth_error_None in Ea; lia]. destruct (nth_error avail' i) as [b|] eqn:Eb; [|apply nth_error_None in Eb; lia].
    exists a, (value b). split; auto. split; [apply (proj1 (Forall_forall _ _) OA a (nth_error_In _ _ Ea))|]. split; [apply (proj1 (Forall_forall _ _) A2 b (nth_error_In _ _ Eb))|]. apply (A3 i b Eb).
  - destruct (accept_false inc avail []) as (tail & -> & E1 & E2 & E3). cbn [snd app]. split; auto. split.
    + clear - E2 E3 HI. revert tail E2 E3. induction HI as [|m inc (L & _) _ IH]; intros [|x tail] E2 E3; cbn in E2; try discriminate; constructor.
      * inversion E2 as [[E4 E5]]. split; [congruence|]. inversion E3; subst. eapply Forall_impl; [|eassumption]. intros y <-. split; [reflexivity|rewrite value_f0; lra].
      * inversion E2; inversion E3; subst. apply IH; auto.
    + intros i _. left. now apply granted_zero.
Qed.

Lemma keep_ok l : Forall ok l -> forall cap w, Forall ok (keep_f cap w l).
Proof. induction 1 as [|x l H _ IH]; intros cap w; cbn [keep_f]; [constructor|]. destruct (flt _ _); [apply IH|]. constructor; auto. Qed.
Lemma rsum_vals_ge0 l : Forall ok l -> 0 <= rsum (vals l).
Proof. intros H. apply rsum_ge0. unfold vals. rewrite Forall_map. eapply Forall_impl; [|exact H]. intros x X. apply X. Qed.
Lemma keep_len cap l : forall w, (length (keep_f cap w l) <= length l)%nat.
Proof. induction l as [|x l IH]; intros w; cbn [keep_f length]; auto. destruct (flt _ _); cbn [length]; [specialize (IH w); lia|specialize (IH (fadd w x)); lia]. Qed.
Lemma ok_f0 : ok f0. Proof. split; [reflexivity|rewrite value_f0; lra]. Qed.

(** whole numbers *)
Lemma keep_whole cap : fin cap = true -> forall l ns w n, whole w n -> (0 <= n)%Z -> Forall2 whole l ns -> Forall (fun k => 0 <= k)%Z ns -> (n + zsum ns < 2 ^ 53)%Z -> value w <= value cap ->
  value w + rsum (vals (keep_f cap w l)) <= value cap.
Proof.
  intros Fc. induction l as [|x l IH]; intros ns w n Ww Pn HW HN HT Lw; cbn [keep_f]; [cbn; lra|]. inversion HW as [|? k ? ns' Wx W2]; subst. inversion HN as [|? ? Pk HN']; subst. change (zsum (k :: ns'))%Z with (k + zsum ns')%Z in HT.
  assert (Z0 : (0 <= zsum ns')%Z) by (clear - HN'; unfold zsum; induction HN'; cbn [fold_right]; lia).
  pose proof (fadd_whole w x n k Ww Wx ltac:(lia)) as Wa. destruct Wa as (Fa & Va). rewrite (flt_ok cap _ Fc Fa). destruct (Rlt_bool_spec (value cap) (value (fadd w x))).
  - eapply IH; eauto. lia.
  - specialize (IH ns' (fadd w x) (n + k)%Z (conj Fa Va) ltac:(lia) W2 HN' ltac:(lia) H). cbn [vals map rsum fold_right]. fold (vals (keep_f cap (fadd w x) l)). fold (rsum (vals (keep_f cap (fadd w x) l))). rewrite Va, plus_IZR in IH. destruct Ww as (_ & ->). destruct Wx as (_ & ->). lra.
Qed.
