(** C47: splitting to a larger communicator. *)
From Verif Require Import Base GraphModel CsrProofs ConstructProofs GraphSpec AccessProofs AccessProofs2 CountProofs GraphTop GraphTop2 GraphTop3 GraphProps Comm TagModel TagProps MigrateModel MigrateSpec MigrateProofs1 MigrateProofs5 MigrateTop MigrateProps RepartModel RepartProofs SplitModel SplitProofs.

(** ** specification *)
(** The small communicator holds the parts ps; part p sits on the process with rank [place p] of the large communicator, and
    the other processes of the large communicator hold nothing.  [calls] are the insert calls of the plan of each part (what
    the partitioner decided); [fresh]: original owners were never recorded (original_owners is NULL). *)
Definition placed (fuel : nat) (fresh : bool) (place : nat -> nat) (ps : list pdesc) (calls : list (list plan_op)) (P : procs) : Prop :=
  length calls = length ps /\
  (forall p, p < length ps -> exists o, nth_error P (place p) = Some (Some o) /\ o_rank o = p) /\
  (forall R o, nth_error P R = Some (Some o) -> R = place (o_rank o) /\ exists pd cs,
     nth_error ps (o_rank o) = Some pd /\ nth_error calls (o_rank o) = Some cs /\
     build_part (Z.of_nat (o_rank o)) true (pd_verts pd) (pd_vws pd) (pd_tys pd) (pd_owns pd) = Some (o_g o) /\
     o_oo o = (if fresh then None else Some (ainit (pd_oo pd))) /\
     made_plan fuel (o_g o) cs (o_plan o) /\ forall op, In op cs -> call_ok (o_g o) (length P) op).
(** where the vertices go: planned destinations are ranks of the large communicator, unplanned vertices stay on their process *)
Definition goes_to (own' : Z -> nat) (place : nat -> nat) (ps : list pdesc) (calls : list (list plan_op)) : Prop :=
  forall p pd cs l v, nth_error ps p = Some pd -> nth_error calls p = Some cs -> nth_error (pd_verts pd) l = Some v ->
    match planned cs l with Some d => d = Z.of_nat (own' v) | None => own' v = place p end.
(** the recorded original owners after the split: the process that held the vertex, when nothing was recorded before *)
Definition recorded (fresh : bool) (place : nat -> nat) (own : Z -> nat) (V : list (Z * (Z * Z))) : list (Z * (Z * Z)) :=
  if fresh then map (fun v => (fst v, (fst (snd v), Z.of_nat (place (own (fst v)))))) V else V.

(** ** proofs *)
Definition ed0 : etd := mkEtd 0 0 [] [] [] [Some 0] [] [Some 0] [].
Lemma build_void me : build_part me true [] [] [([], [])] [] = Some (with_types (with_hyper (empty_graph me) true) [ed0]).
Proof. reflexivity. Qed.

Lemma rank_from_spec P p : forall R, (exists i o, nth_error P i = Some (Some o) /\ o_rank o = p) ->
  (forall i j o o', nth_error P i = Some (Some o) -> nth_error P j = Some (Some o') -> o_rank o = o_rank o' -> i = j) ->
  forall i o, nth_error P i = Some (Some o) -> o_rank o = p -> rank_from R P p = Some (Z.of_nat (R + i)).
Proof.
  induction P as [|x P IH]; intros R EX U i o Hi Ho; [destruct i; discriminate|].
  destruct i as [|i].
  - inversion Hi; subst x. cbn. rewrite Ho, Nat.eqb_refl. f_equal. lia.
  - cbn in Hi. assert (IHH : rank_from (S R) P p = Some (Z.of_nat (S R + i))).
    { apply (IH (S R)) with (o := o); auto; [eauto|]. intros a b oa ob Ha Hb E. specialize (U (S a) (S b) oa ob Ha Hb E). lia. }
    replace (R + S i) with (S R + i) by lia. cbn. destruct x as [o'|]; auto. destruct (Nat.eqb_spec (o_rank o') p) as [E|]; auto.
    exfalso. specialize (U 0 (S i) o' o eq_refl Hi). assert (0 = S i) by (apply U; congruence). lia.
Qed.

Lemma ghost_known own V T r p v : wf_global V T -> holds own V T r p -> In v (ghosts_of (pd_verts p) (pd_tys p)) -> In v (map fst V).
Proof.
  intros (_ & WF) (HV & _ & _ & Lt & PE & _) Hv.
  assert (IP : In v (all_pins (pd_tys p))).
  { clear - Hv. unfold ghosts_of in Hv. revert Hv. generalize (pd_verts p). induction (all_pins (pd_tys p)) as [|x l IH]; intros s H; cbn in *; auto. destruct (existsb (Z.eqb x) s); [right; eauto|]. destruct H as [->|H]; [left; auto|right; eauto]. }
  unfold all_pins in IP. apply in_flat_map in IP as ((es & ws) & Hty & IP). pose proof Hty as Hty'. apply In_nth_error in Hty as (t & Hty).
  assert (t < length (pd_tys p)) by (apply nth_error_Some; intros X; assert (Some (es, ws) = None) by (rewrite <- Hty; exact X); discriminate).
  destruct (nth_error T t) as [E|] eqn:ET; [|apply nth_error_None in ET; lia]. pose proof (PE _ _ _ Hty ET) as PM.
  unfold pins_of in IP. apply in_concat in IP as (x & Hx & IP). apply in_map_iff in Hx as (e & <- & He). cbn [fst] in He.
  assert (LW : length (eweights (es, ws)) = length es).
  { destruct (proj1 (proj2 (proj2 (proj2 HV)) es ws Hty')) as [->|Hw]; unfold eweights; cbn; [apply repeat_length|]. destruct ws; [now rewrite repeat_length|exact Hw]. }
  assert (HW : exists w, In (e, w) (erecs (es, ws))).
  { apply In_nth_error in He as (i & He). assert (i < length es) by (apply nth_error_Some; intros X; assert (Some e = None) by (rewrite <- He; exact X); discriminate).
    destruct (nth_error (eweights (es, ws)) i) as [w|] eqn:Ew; [|apply nth_error_None in Ew; lia].
    exists w. unfold erecs. apply in_combine_nth. exists i. split; [exact He|exact Ew]. }
  destruct HW as (w & Hw). apply (Permutation_in _ PM) in Hw. apply filter_In in Hw as (Hw & _). destruct (WF E (nth_error_In _ _ ET)) as (_ & W2). exact (W2 (e, w) v Hw IP).
Qed.

Lemma F2_length A B (R : A -> B -> Prop) l1 l2 : Forall2 R l1 l2 -> length l1 = length l2.
Proof. induction 1; cbn; congruence. Qed.

Section S.
Variables (fuel : nat) (fresh : bool) (place : nat -> nat) (own own' : Z -> nat) (V : list (Z * (Z * Z))) (E0 : list (edge_input * Z)).
Variables (ps : list pdesc) (calls : list (list plan_op)) (P : procs).
Hypothesis HD : distributed own V [E0] ps.
Hypothesis HP : placed fuel fresh place ps calls P.
Hypothesis HG : goes_to own' place ps calls.
Hypothesis HB : big_enough fuel V [E0].
Hypothesis HN : 0 < length ps.

Let L : list Z := map (fun p => Z.of_nat (place p)) (seq 0 (length ps)).

Lemma place_inj p q : p < length ps -> q < length ps -> place p = place q -> p = q.
Proof.
  intros Hp Hq E. destruct HP as (_ & A & _). destruct (A p Hp) as (o & X & <-). destruct (A q Hq) as (o' & Y & <-). rewrite E in X. congruence.
Qed.
Lemma orig_unique i j o o' : nth_error P i = Some (Some o) -> nth_error P j = Some (Some o') -> o_rank o = o_rank o' -> i = j.
Proof. intros Hi Hj E. destruct HP as (_ & _ & A). destruct (A i o Hi) as (-> & _). destruct (A j o' Hj) as (-> & _). now rewrite E. Qed.

Lemma small_ok : small_size P = length ps.
Proof.
  unfold small_size. set (f := fun o : option orig => match o with Some _ => true | None => false end).
  set (rk := fun o : option orig => match o with Some o => o_rank o | None => 0 end).
  assert (Hin : forall p, In p (map rk (filter f P)) <-> p < length ps).
  { intros p. rewrite in_map_iff. split.
    - intros ([o|] & <- & H); apply filter_In in H as (H & X); [|discriminate]. apply In_nth_error in H as (R & H). destruct HP as (_ & _ & A).
      destruct (A R o H) as (_ & pd & cs & Y & _). cbn. apply nth_error_Some. congruence.
    - intros Hp. destruct HP as (_ & A & _). destruct (A p Hp) as (o & X & <-). exists (Some o). split; auto. apply filter_In. split; auto. eapply nth_error_In; eauto. }
  assert (Nd : NoDup (map rk (filter f P))).
  { assert (G : forall Q, (forall i j o o', nth_error Q i = Some (Some o) -> nth_error Q j = Some (Some o') -> o_rank o = o_rank o' -> i = j) -> NoDup (map rk (filter f Q))).
    { clear. induction Q as [|x Q IH]; intros U; cbn; [constructor|].
      assert (IHH : NoDup (map rk (filter f Q))) by (apply IH; intros i j o o' Hi Hj E; specialize (U (S i) (S j) o o' Hi Hj E); lia).
      destruct x as [o|]; cbn; auto. constructor; auto. intros H. apply in_map_iff in H as ([o'|] & E & H); apply filter_In in H as (H & X); [|discriminate].
      apply In_nth_error in H as (j & H). specialize (U 0 (S j) o o' eq_refl H). assert (0 = S j) by (apply U; cbn in E; congruence). lia. }
    apply G. exact orig_unique. }
  rewrite <- (map_length rk). rewrite <- (seq_length (length ps) 0) at 1. apply Permutation_length. apply NoDup_Permutation; auto using seq_NoDup.
  intros p. rewrite Hin, in_seq. lia.
Qed.
Lemma ranks_ok : new_ranks P = Some L.
Proof.
  unfold new_ranks. rewrite small_ok. apply mapM_some. intros p Hp. apply in_seq in Hp. destruct HP as (_ & A & _). destruct (A p) as (o & X & Y); [lia|].
  rewrite (rank_from_spec P p 0) with (i := place p) (o := o); auto; [eauto|]. exact orig_unique.
Qed.
Lemma nth_L p : p < length ps -> nth p L 0%Z = Z.of_nat (place p).
Proof. intros Hp. unfold L. rewrite (nth_indep _ 0%Z (Z.of_nat (place 0))) by (rewrite map_length, seq_length; lia). rewrite (map_nth (fun p => Z.of_nat (place p))), seq_nth by lia. reflexivity. Qed.

Definition desc2 (Ro : nat * option orig) : pdesc :=
  match snd Ro with
  | Some o => match nth_error ps (o_rank o) with
              | Some pd => mkPD (pd_verts pd) (pd_vws pd) (pd_tys pd) (rename L (pd_owns pd)) (if fresh then repeat (Z.of_nat (fst Ro)) (length (pd_verts pd)) else pd_oo pd)
              | None => mkPD [] [] [] [] [] end
  | None => mkPD [] [] [([], [])] [] []
  end.
Definition calls2 (o : option orig) : list plan_op :=
  match o with Some o => match nth_error calls (o_rank o) with Some cs => cs | None => [] end | None => [] end.
Let RP := combine (seq 0 (length P)) P.
Let ps2 := map desc2 RP.
Let cs2 := map calls2 P.
Lemma nth_RP R x : nth_error RP R = Some x <-> fst x = R /\ nth_error P R = Some (snd x).
Proof.
  unfold RP. assert (G : forall (l : procs) a R, nth_error (combine (seq a (length l)) l) R = option_map (fun o => (a + R, o)) (nth_error l R)).
  { clear. induction l as [|y l IH]; intros a [|R]; cbn; auto. - now rewrite Nat.add_0_r. - rewrite IH. replace (a + S R) with (S a + R) by lia. reflexivity. }
  rewrite G. cbn. destruct x as (r, o). destruct (nth_error P R) as [y|]; cbn; split.
  - intros H; inversion H; auto. - intros (-> & H); inversion H; auto. - discriminate. - intros (_ & H); discriminate.
Qed.
Lemma len_RP : length RP = length P.
Proof. unfold RP. rewrite combine_length, seq_length. lia. Qed.
Lemma ps2_nth R pd : nth_error ps2 R = Some pd -> exists o, nth_error P R = Some o /\ pd = desc2 (R, o).
Proof. unfold ps2. rewrite nth_error_map. destruct (nth_error RP R) as [(r, o)|] eqn:E; [|discriminate]. intros H. inversion H; subst. apply nth_RP in E as (<- & E). eauto. Qed.

Lemma fuel_pos : 0 < fuel. Proof. destruct HB as (H & _). lia. Qed.
Lemma own_lt v : In v (map fst V) -> own v < length ps. Proof. intros H. now apply HD. Qed.

(** the process R of the large communicator before the migration *)
Lemma prep_ok R o : nth_error P R = Some o -> exists s, split_prep fuel L (R, o) = Some s /\
  match o with
  | Some _ => built_from true R (desc2 (R, o)) (mp_g s, mp_oo s) /\ made_plan fuel (mp_g s) (calls2 o) (mp_plan s) /\ (forall op, In op (calls2 o) -> call_ok (mp_g s) (length P) op) /\ ntypes (mp_g s) = 1 /\ hyper (mp_g s) = true
  | None => s = mkMP (empty_graph (Z.of_nat R)) [] (mkPlan [] [])
  end.
Proof.
  intros HR. destruct o as [o|].
  - destruct HP as (_ & _ & A). destruct (A R o HR) as (ER & pd & cs & Hp & Hc & BP & OO & MP & CK). destruct HD as (_ & _ & HH). destruct (HH _ _ Hp) as (HV & Lo & PV & Lt & PE & HO).
    destruct (expanded_build (Z.of_nat (o_rank o)) (Z.of_nat R) true _ _ _ _ _ L HV BP) as (g1 & C1 & B1).
    { intros v Hv. exists (Z.of_nat (own v)). split; [now apply HO|]. unfold L. rewrite map_length, seq_length.
      assert (own v < length ps); [|lia]. apply own_lt. eapply ghost_known; [apply HD|exact (HH _ _ Hp)|exact Hv]. }
    assert (NL : nlv g1 = nlv (o_g o)). { unfold changeOwners in C1. match type of C1 with obind ?x _ = _ => destruct x; [|discriminate] end. cbn in C1. inversion C1; reflexivity. }
    assert (NT : types g1 = types (o_g o)). { unfold changeOwners in C1. match type of C1 with obind ?x _ = _ => destruct x; [|discriminate] end. cbn in C1. inversion C1; reflexivity. }
    destruct (part_rep _ _ _ _ _ _ _ HV B1) as (HR1 & _ & Hh1 & _).
    assert (NV : nlv (o_g o) = length (pd_verts pd)) by (rewrite <- NL; exact (rp_nlv _ _ _ _ _ HR1)).
    unfold split_prep. rewrite C1. cbn [obind]. rewrite OO.
    assert (OK : setOriginalOwners (with_self g1 (Z.of_nat R)) (if fresh then None else Some (ainit (pd_oo pd))) =
                 Some (ainit (if fresh then repeat (Z.of_nat R) (length (pd_verts pd)) else pd_oo pd))).
    { destruct fresh; [|reflexivity]. unfold setOriginalOwners. cbn [with_self self nlv]. rewrite NL, NV. clear.
      assert (G : forall n k, foldM (fun (a : arr Z) i => aset a i (Z.of_nat R)) (seq k n) (ainit (repeat (Z.of_nat R) k) ++ anew n) = Some (ainit (repeat (Z.of_nat R) (k + n)))).
      { induction n as [|n IH]; intros k; cbn [seq foldM anew repeat]; [now rewrite app_nil_r, Nat.add_0_r|].
        assert (Lk : length (ainit (repeat (Z.of_nat R) k)) = k) by (unfold ainit; rewrite map_length, repeat_length; auto).
        rewrite aset_some by (rewrite app_length, Lk; cbn; lia). cbn [obind].
        assert (U : forall (a : arr Z) r x, upd (a ++ None :: r) (length a) (Some x) = a ++ Some x :: r) by (clear; induction a as [|y a IHa]; intros; cbn; [reflexivity|now rewrite IHa]).
        assert (UU : upd (ainit (repeat (Z.of_nat R) k) ++ None :: repeat None n) k (Some (Z.of_nat R)) = ainit (repeat (Z.of_nat R) k) ++ Some (Z.of_nat R) :: repeat None n) by (rewrite <- (U _ (repeat None n)); now rewrite Lk).
        rewrite UU. specialize (IH (S k)). replace (k + S n) with (S k + n) by lia. rewrite <- IH. f_equal. assert (RS : repeat (Z.of_nat R) (S k) = repeat (Z.of_nat R) k ++ [Z.of_nat R]) by (clear; induction k as [|k IHk]; cbn; [reflexivity|]; f_equal; exact IHk). rewrite RS. unfold ainit, anew. rewrite map_app, <- app_assoc. reflexivity. }
      exact (G (length (pd_verts pd)) 0). }
    rewrite OK. cbn [obind]. eexists. split; [reflexivity|]. cbn [mp_g mp_oo mp_plan]. unfold desc2, calls2. cbn [fst snd]. rewrite Hp, Hc. cbn [pd_verts pd_vws pd_tys pd_owns pd_oo].
    split; [split; [exact B1|reflexivity]|]. split; [|split; [|split]].
    + destruct MP as (p0 & M1 & M2). exists p0. unfold plan_new, create_tag, all_verts, vit_step in *. cbn [with_self nlv] in *. rewrite NL. split; [exact M1|].
      rewrite <- M2. apply foldM_ext_in. intros p op _. destruct op as [l d|]; cbn [do_op]; [|reflexivity].
      unfold plan_insert, plan_has, get_vtag. cbn [with_self nlv]. rewrite NL. reflexivity.
    + intros op Hop. specialize (CK op Hop). destruct op as [l d|]; cbn [call_ok] in *; auto. cbn [with_self nlv]. rewrite NL. exact CK.
    + unfold ntypes. cbn [with_self types]. pose proof (rp_types _ _ _ _ _ HR1) as F2. apply F2_length in F2. cbn [with_self types] in F2. rewrite <- F2, map_length. exact Lt.
    + exact Hh1.
  - unfold split_prep, plan_new. cbn [empty_graph nlv Nat.eqb obind setOriginalOwners seq foldM anew repeat]. eexists. split; [reflexivity|reflexivity].
Qed.

Lemma holds2 R o : nth_error P R = Some o -> holds (fun v => place (own v)) (recorded fresh place own V) [E0] R (desc2 (R, o)).
Proof.
  intros HR. destruct o as [o|].
  - destruct HP as (_ & _ & A). destruct (A R o HR) as (ER & pd & cs & Hp & Hc & BP & OO & MP & CK). pose proof HD as HD'. destruct HD' as (WF & OL & HH). destruct (HH _ _ Hp) as (HV & Lo & PV & Lt & PE & HO).
    assert (Lp : o_rank o < length ps) by (apply nth_error_Some; congruence).
    unfold desc2. cbn [fst snd]. rewrite Hp. unfold holds. cbn [pd_verts pd_vws pd_tys pd_owns pd_oo]. split; [exact HV|]. split; [destruct fresh; [apply repeat_length|exact Lo]|].
    assert (OE : forall v, In v (map fst V) -> (place (own v) =? R) = (own v =? o_rank o)).
    { intros v Hv. destruct (Nat.eqb_spec (own v) (o_rank o)) as [->|N]; [rewrite ER; apply Nat.eqb_refl|]. apply Nat.eqb_neq. intros E. apply N. apply place_inj; auto. congruence. }
    assert (FV : filter (fun v => place (own (fst v)) =? R) V = filter (fun v => own (fst v) =? o_rank o) V).
    { apply filter_ext_in. intros v Hv. apply OE. now apply in_map. }
    split; [|split; [exact Lt|split]].
    + unfold recorded. destruct fresh.
      * set (f := fun v : Z * (Z * Z) => (fst v, (fst (snd v), Z.of_nat (place (own (fst v)))))).
        assert (FM : filter (fun v => place (own (fst v)) =? R) (map f V) = map f (filter (fun v => place (own (fst v)) =? R) V)).
        { generalize V. clear. induction V as [|x l IH]; cbn; auto. destruct (place (own (fst x)) =? R); cbn; now rewrite IH. }
        rewrite FM, FV. assert (VR : vrecs (mkPD (pd_verts pd) (pd_vws pd) (pd_tys pd) (rename L (pd_owns pd)) (repeat (Z.of_nat R) (length (pd_verts pd)))) = map f (vrecs pd)).
        { assert (OV : forall v, In v (pd_verts pd) -> place (own v) = R).
          { intros v Hv. assert (In v (map fst (vrecs pd))).
            { unfold vrecs. clear - Hv Lo HV. destruct HV as (_ & Lw & _).
              assert (LW : length (vweights pd) = length (pd_verts pd)) by (unfold vweights; rewrite app_length, repeat_length; lia).
              assert (LC : length (combine (vweights pd) (pd_oo pd)) = length (pd_verts pd)) by (rewrite combine_length; lia).
              revert LC Hv. generalize (combine (vweights pd) (pd_oo pd)). generalize (pd_verts pd). clear. induction l as [|a l IH]; intros [|b k] LC Hv; cbn in *; try discriminate; auto. destruct Hv; auto. }
            apply in_map_iff in H as (x & <- & Hx). apply (Permutation_in _ PV) in Hx. apply filter_In in Hx as (_ & Hx). apply Nat.eqb_eq in Hx. now rewrite Hx. }
          unfold vrecs, vweights. cbn [pd_verts pd_vws pd_oo]. destruct HV as (_ & Lw & _).
          assert (LW : length (pd_vws pd ++ repeat 1%Z (length (pd_verts pd) - length (pd_vws pd))) = length (pd_verts pd)) by (rewrite app_length, repeat_length; lia).
          revert LW Lo OV. generalize (pd_vws pd ++ repeat 1%Z (length (pd_verts pd) - length (pd_vws pd))). generalize (pd_verts pd) (pd_oo pd). unfold f. clear.
          induction l as [|a l IH]; intros [|b k] [|c m] A B OV; cbn in *; try discriminate; auto. f_equal; [rewrite (OV a); auto|]. apply IH; auto. }
        rewrite VR. now apply Permutation_map.
      * rewrite FV. exact PV.
    + intros t ty E Ht HE. specialize (PE t ty E Ht HE). assert (FE : filter (touches (fun v => place (own v)) R) E = filter (touches own (o_rank o)) E); [|rewrite FE; exact PE].
      apply filter_ext_in. intros e He. unfold touches. destruct WF as (_ & WF). destruct (WF E (nth_error_In _ _ HE)) as (_ & W2).
      apply eq_true_iff_eq. rewrite !existsb_exists. split; intros (v & Hv & X); exists v; split; auto; [rewrite <- OE|rewrite OE]; eauto.
    + intros v Hv. rewrite zfind_rename, (HO v Hv). cbn. f_equal. rewrite Nat2Z.id. apply nth_L.
      apply OL. eapply ghost_known; [exact WF|exact (HH _ _ Hp)|exact Hv].
  - (* nothing lives on a process outside the small communicator *)
    assert (NO : forall v, In v (map fst V) -> place (own v) <> R).
    { intros v Hv E. destruct HP as (_ & A & _). destruct (A (own v) (own_lt v Hv)) as (o & X & _). rewrite E in X. congruence. }
    unfold desc2. cbn [fst snd]. unfold holds. cbn [pd_verts pd_vws pd_tys pd_owns pd_oo]. split.
    { split; [constructor|]. split; [cbn; lia|]. split; [cbn; lia|]. intros es ws [H|[]]. inversion H; subst. split; [auto|discriminate]. }
    split; [reflexivity|]. split; [|split; [reflexivity|split]].
    + assert (FN : filter (fun v => place (own (fst v)) =? R) (recorded fresh place own V) = []); [|rewrite FN; constructor].
      assert (IV : forall v, In v (recorded fresh place own V) -> In (fst v) (map fst V)).
      { intros v. unfold recorded. destruct fresh; [|apply in_map]. intros H. apply in_map_iff in H as (x & <- & H). cbn. now apply in_map. }
      revert IV. generalize (recorded fresh place own V). clear - NO. induction l as [|x l IH]; intros IV; cbn; auto. destruct (Nat.eqb_spec (place (own (fst x))) R) as [E|_].
      * exfalso. apply (NO (fst x)); auto. apply IV. left; auto. * apply IH. intros; apply IV. right; auto.
    + intros [|t] ty E Ht HE; [|destruct t; discriminate]. inversion Ht; inversion HE; subst ty E. cbn. assert (FN : filter (touches (fun v => place (own v)) R) E0 = []); [|rewrite FN; constructor].
      destruct HD as ((_ & WF) & _). destruct (WF E0 (or_introl eq_refl)) as (_ & W2). revert W2. generalize E0. clear - NO. induction E0 as [|e l IH]; intros W2; cbn; auto.
      assert (T : touches (fun v => place (own v)) R e = false); [|rewrite T; apply IH; intros; eapply W2; eauto; right; auto].
      apply not_true_iff_false. intros X. unfold touches in X. apply existsb_exists in X as (v & Hv & X). apply Nat.eqb_eq in X. apply (NO v); auto. apply (W2 e v); auto. left; auto.
    + intros v [].
Qed.

Definition twin (s : mpart) : mpart := if ntypes (mp_g s) =? 0 then mkMP (with_types (mp_g s) [ed0]) (mp_oo s) (mp_plan s) else s.

Lemma split_ok : split fuel P (fun sts' => length sts' = length P /\ exists ps', length ps' = length P /\ distributed own' (recorded fresh place own V) [E0] ps' /\
  forall R p' s', nth_error ps' R = Some p' -> nth_error sts' R = Some s' -> built_from true R p' s').
Proof.
  assert (MS : exists sts, mapM (split_prep fuel L) RP = Some sts).
  { apply mapM_forall. intros (R, o) H. apply In_nth_error in H as (i & H). apply nth_RP in H as (<- & H). cbn [fst snd] in H. destruct (prep_ok _ _ H) as (s & E & _). eauto. }
  destruct MS as (sts & MS). exists L, sts. split; [exact ranks_ok|]. split; [exact MS|].
  assert (NS : forall R o, nth_error P R = Some o -> exists s, nth_error sts R = Some s /\ match o with
    | Some _ => built_from true R (desc2 (R, o)) (mp_g s, mp_oo s) /\ made_plan fuel (mp_g s) (calls2 o) (mp_plan s) /\ (forall op, In op (calls2 o) -> call_ok (mp_g s) (length P) op) /\ ntypes (mp_g s) = 1 /\ hyper (mp_g s) = true
    | None => s = mkMP (empty_graph (Z.of_nat R)) [] (mkPlan [] []) end).
  { intros R o HR. destruct (mapM_nth _ _ _ _ _ R (R, o) MS) as (s & X & Y); [apply nth_RP; auto|]. destruct (prep_ok _ _ HR) as (s' & Y' & H). rewrite Y in Y'. inversion Y'; subst s'. eauto. }
  assert (LS : length sts = length P) by (rewrite (mapM_length _ _ _ _ _ MS); exact len_RP).
  assert (HY : existsb (fun s => hyper (mp_g s)) sts = true).
  { destruct HP as (_ & A & _). destruct (A 0 HN) as (o & X & _). destruct (NS _ _ X) as (s & Y & _ & _ & _ & _ & H). apply existsb_exists. exists s. split; [eapply nth_error_In; eauto|exact H]. }
  unfold unify. rewrite HY. set (u := fun s => mkMP (with_hyper (mp_g s) true) (mp_oo s) (mp_plan s)).
  assert (NU : forall R s, nth_error sts R = Some s -> exists o, nth_error P R = Some o /\ match o with
    | Some _ => u s = s /\ built_from true R (desc2 (R, o)) (mp_g s, mp_oo s) /\ made_plan fuel (mp_g s) (calls2 o) (mp_plan s) /\ (forall op, In op (calls2 o) -> call_ok (mp_g s) (length P) op) /\ ntypes (mp_g s) = 1
    | None => s = mkMP (empty_graph (Z.of_nat R)) [] (mkPlan [] []) end).
  { intros R s HR. assert (LR : R < length P) by (rewrite <- LS; apply nth_error_Some; congruence). destruct (nth_error P R) as [o|] eqn:Eo; [|apply nth_error_None in Eo; lia].
    destruct (NS _ _ Eo) as (s' & X & H). rewrite HR in X. inversion X; subst s'. exists o. split; auto. destruct o as [o|]; auto. destruct H as (A & B & C & D & E). split; auto.
    unfold u. destruct s as [g oo pl]. cbn [mp_g mp_oo mp_plan] in *. f_equal. destruct g; cbn in *. unfold with_hyper. cbn. now rewrite E. }
  assert (SIM : Forall2 (sim [] [ed0]) (map u sts) (map twin (map u sts))).
  { rewrite map_map. assert (G : forall l, (forall s, In s l -> exists R, nth_error sts R = Some s) -> Forall2 (sim [] [ed0]) (map u l) (map (fun x => twin (u x)) l)).
    { induction l as [|s l IH]; intros HI; cbn; constructor; [|apply IH; intros; apply HI; right; auto].
      destruct (HI s (or_introl eq_refl)) as (R & HR). destruct (NU _ _ HR) as ([o|] & HPo & H).
      - destruct H as (Eu & _ & _ & _ & NT). rewrite Eu. left. unfold twin. rewrite NT. reflexivity.
      - subst s. right. exists (with_hyper (empty_graph (Z.of_nat R)) true). unfold u, twin. cbn. repeat split. }
    apply G. intros s Hs. now apply In_nth_error. }
  assert (LC : length calls = length ps) by apply HP.
  assert (HD2 : distributed (fun v => place (own v)) (recorded fresh place own V) [E0] ps2).
  { assert (MF : map fst (recorded fresh place own V) = map fst V). { unfold recorded. destruct fresh; auto. rewrite map_map. reflexivity. }
    split; [split|split].
    - rewrite MF. apply HD. - rewrite MF. apply HD.
    - intros v Hv. rewrite MF in Hv. unfold ps2. rewrite map_length, len_RP. destruct HP as (_ & A & _). destruct (A (own v) (own_lt v Hv)) as (o & X & _). apply nth_error_Some. congruence.
    - intros R pd HR. apply ps2_nth in HR as (o & HR & ->). now apply holds2. }
  assert (RDY : ready true fuel ps2 cs2 (map twin (map u sts))).
  { unfold ready. unfold ps2 at 1 2. unfold cs2 at 1. rewrite !map_length, len_RP. split; [exact LS|]. split; [reflexivity|].
    intros R pd cs s HR HC HSs. apply ps2_nth in HR as (o & HR & ->). unfold cs2 in HC. rewrite nth_error_map, HR in HC. cbn in HC. inversion HC; subst cs. clear HC.
    rewrite !nth_error_map in HSs. destruct (nth_error sts R) as [s0|] eqn:E0s; [|discriminate]. cbn in HSs. inversion HSs; subst s. clear HSs.
    unfold ps2. rewrite map_length, len_RP. destruct (NU _ _ E0s) as (o' & HPo & H). rewrite HR in HPo. inversion HPo; subst o'. destruct o as [o|].
    - destruct H as (Eu & A & B & C & NT). rewrite Eu. unfold twin. rewrite NT. cbn [Nat.eqb]. auto.
    - subst s0. unfold u, twin. cbn [mp_g with_hyper empty_graph ntypes types length Nat.eqb mp_oo mp_plan]. split; [split; [exact (build_void (Z.of_nat R))|reflexivity]|].
      split; [exists (mkPlan [] []); split; reflexivity|]. intros op []. }
  assert (MV : moved_to own' ps2 cs2).
  { intros R pd cs l v HR HC Hl. apply ps2_nth in HR as (o & HR & ->). unfold cs2 in HC. rewrite nth_error_map, HR in HC. cbn in HC. inversion HC; subst cs. clear HC.
    destruct o as [o|]; [|destruct l; discriminate]. destruct HP as (_ & _ & A). destruct (A R o HR) as (ER & pd & cs & Hp & Hc & _).
    unfold desc2 in Hl. cbn [fst snd] in Hl. rewrite Hp in Hl. cbn [pd_verts] in Hl. unfold calls2. rewrite Hc. specialize (HG _ _ _ _ _ Hp Hc Hl). destruct (planned cs l); auto. congruence. }
  assert (BE : big_enough fuel (recorded fresh place own V) [E0]).
  { destruct HB as (B1 & B2). split; auto. unfold recorded. destruct fresh; auto. now rewrite map_length. }
  assert (MT : max_types (map twin (map u sts)) = 1 /\ max_types (map u sts) = 1).
  { assert (G : forall l, (forall x, In x l -> x = 0 \/ x = 1) -> In 1 l -> fold_right Nat.max 0 l = 1).
    { clear. induction l as [|x l IH]; intros A H; [destruct H|]. destruct H as [->|H]; cbn [fold_right]; [|assert (E : fold_right Nat.max 0 l = 1) by (apply IH; [intros; apply A; right; auto|exact H])].
      - assert (fold_right Nat.max 0 l <= 1); [|lia]. clear - A. assert (A' : forall x, In x l -> x <= 1) by (intros x Hx; destruct (A x (or_intror Hx)); lia). clear A. induction l as [|x l IH]; cbn [fold_right]; [lia|]. pose proof (A' x (or_introl eq_refl)). assert (fold_right Nat.max 0 l <= 1) by (apply IH; intros; apply A'; right; auto). lia.
      - rewrite E. destruct (A x (or_introl eq_refl)); lia. }
    destruct HP as (_ & A & _). destruct (A 0 HN) as (o & X & _). destruct (NS _ _ X) as (s & Y & H). pose proof H as H'. destruct H' as (_ & _ & _ & NT & _).
    assert (Us : u s = s). { destruct (NU _ _ Y) as (o' & Z1 & Z2). rewrite X in Z1. inversion Z1; subst o'. apply Z2. }
    unfold max_types. rewrite !map_map. split; apply G.
    - intros x Hx. apply in_map_iff in Hx as (s0 & <- & Hs). apply In_nth_error in Hs as (R & HR). destruct (NU _ _ HR) as ([o'|] & _ & Z2).
      + destruct Z2 as (-> & _ & _ & _ & NT'). unfold twin. rewrite NT'. cbn. auto. + subst s0. auto.
    - apply in_map_iff. exists s. split; [|eapply nth_error_In; eauto]. rewrite Us. unfold twin. rewrite NT. cbn. exact NT.
    - intros x Hx. apply in_map_iff in Hx as (s0 & <- & Hs). apply In_nth_error in Hs as (R & HR). destruct (NU _ _ HR) as ([o'|] & _ & Z2).
      + destruct Z2 as (-> & _ & _ & _ & NT'). auto. + subst s0. auto.
    - apply in_map_iff. exists s. split; [|eapply nth_error_In; eauto]. rewrite Us. exact NT. }
  destruct MT as (M2 & M1).
  assert (A1 : forall ed, In ed [] -> e_num ed = 0) by (intros ed []).
  assert (A2 : forall ed, In ed [ed0] -> e_num ed = 0) by (intros ed [<-|[]]; reflexivity).
  assert (A3 : max_types (map u sts) = max_types (map twin (map u sts))) by lia.
  assert (A4 : max_types (map twin (map u sts)) <= 7) by lia.
  assert (A5 : length [ed0] <= 7) by (cbn; lia).
  apply (migrate_sim fuel [] [ed0] fuel_pos A1 A2 A5 (map u sts) (map twin (map u sts)) _ SIM A3 A4).
  - eapply migrate_mono; [|exact (one_step _ own' _ E0 ps2 cs2 _ fuel HD2 RDY MV BE)].
    assert (LP2 : length ps2 = length P) by (unfold ps2; rewrite map_length; exact len_RP).
    intros sts' (ps' & A & B & C & D). split; [congruence|]. exists ps'. split; [congruence|]. auto.
Qed.
End S.

(** ** theorems *)
(** expandParts followed by the change of communicator: on the process of small part [me], which gets rank [me'], the owner
    of every vertex becomes newRanks[old owner]; nothing else that the API shows changes (the graph is the one built from
    the same data at rank me' with renamed owners). *)
Theorem C47_expand_owners : forall me me' hg verts vws tys owns g newRanks,
  valid_input hg verts vws tys -> build_part me hg verts vws tys owns = Some g ->
  (forall v, In v (ghosts_of verts tys) -> exists p, zfind owns v = Some p /\ (0 <= p < Z.of_nat (length newRanks))%Z) ->
  (0 <= me)%Z -> nth_error newRanks (Z.to_nat me) = Some me' ->
  exists g', changeOwners g newRanks = Some g' /\
    (forall l v, nth_error (verts ++ ghosts_of verts tys) l = Some v ->
       exists o, owner g (getVertex l) = Some o /\ owner (with_self g' me') (getVertex l) = nth_error newRanks (Z.to_nat o)) /\
    build_part me' hg verts vws tys (rename newRanks owns) = Some (with_self g' me').
Proof.
  intros me me' hg verts vws tys owns g L HV HB HO HM0 HM. destruct (expanded_build me me' hg verts vws tys owns g L HV HB HO) as (g1 & C1 & B1).
  exists g1. split; auto. split; auto. intros l v Hl. rewrite (p_owner _ _ _ _ _ _ _ HV HB l v Hl), (p_owner _ _ _ _ _ _ _ HV B1 l v Hl).
  eexists. split; [reflexivity|]. unfold part_of. destruct (in_dec Z.eq_dec v verts) as [I|NI]; [now rewrite HM|].
  assert (IG : In v (ghosts_of verts tys)). { apply nth_error_In in Hl. apply in_app_iff in Hl as [H|H]; [contradiction|exact H]. }
  destruct (HO v IG) as (p & Ep & Hp). rewrite zfind_rename, Ep. cbn [option_map]. symmetry. apply nth_error_nth'. lia.
Qed.
Print Assumptions C47_expand_owners.

(** The whole split of a single-type hypergraph: starting from a correct distribution over the small communicator, whatever the
    placement of its processes in the large one and whatever the partitioner planned, every execution ends with a correct
    distribution over the large communicator: every vertex is on the process the plan says and only there, every hyperedge is on
    exactly the processes of its pins, and the recorded owner of every ghost is the process that holds it. *)
Theorem C47_split_partial : forall fuel fresh place own own' V E0 ps calls P,
  distributed own V [E0] ps -> placed fuel fresh place ps calls P -> goes_to own' place ps calls -> big_enough fuel V [E0] -> 0 < length ps ->
  split fuel P (fun sts' => length sts' = length P /\ exists ps', length ps' = length P /\
    distributed own' (recorded fresh place own V) [E0] ps' /\
    forall R p' s', nth_error ps' R = Some p' -> nth_error sts' R = Some s' -> built_from true R p' s').
Proof. exact split_ok. Qed.
Print Assumptions C47_split_partial.

(** distinct parts are on distinct processes *)
Theorem C47_disjoint : forall fuel fresh place ps calls P p q,
  placed fuel fresh place ps calls P -> p < length ps -> q < length ps -> place p = place q -> p = q.
Proof. intros fuel fresh place ps calls P p q H. exact (place_inj fuel fresh place ps calls P H p q). Qed.
Print Assumptions C47_disjoint.

(** LOCAL_PARMETIS: the relabelling loop sends every planned vertex to other_ranks[its sub-part], plans no other vertex, and the
    result is a plan as made by insert calls. *)
Lemma relabel_loop others g : forall hs p m, PInv g p m -> NoDup hs -> (forall l, In l hs -> l < nlv g /\ exists d, fm_get m l = Some d /\ (0 <= d < Z.of_nat (length others))%Z) ->
  (forall r, In r others -> r <> (-1)%Z) ->
  let ins := map (fun l => Ins l (nth (Z.to_nat (match fm_get m l with Some d => d | None => 0%Z end)) others 0%Z)) hs in
  exists p', foldM (fun p h => d <- plan_get g p h ;; (if (d <? 0)%Z then None else r <- nth_error others (Z.to_nat d) ;;
           '(p', _) <- plan_insert g p h r ;; Some p')) (map getVertex hs) p = Some p' /\ foldM (do_op g) ins p = Some p' /\ PInv g p' (fold_left fm_op ins m).
Proof.
  induction hs as [|l hs IH]; intros p m HI Nd HH HO ins; [exists p; cbn; auto|]. subst ins. cbn [map foldM fold_left].
  destruct (HH l (or_introl eq_refl)) as (Ll & d & Ed & Hd). rewrite Ed.
  assert (PG : plan_get g p (getVertex l) = Some d). { unfold plan_get. rewrite get_vtag_local by auto. pose proof HI as (_ & _ & _ & _ & HG). rewrite HG by auto. now rewrite Ed. }
  rewrite PG. cbn [obind]. destruct (Z.ltb_spec d 0); [lia|]. assert (EN : nth_error others (Z.to_nat d) = Some (nth (Z.to_nat d) others 0%Z)) by (apply nth_error_nth'; lia).
  rewrite EN. cbn [obind]. destruct (inv_insert g p m l (nth (Z.to_nat d) others 0%Z) HI Ll) as (p1 & E1 & I1); [apply HO; eapply nth_error_In; eauto|].
  rewrite E1. cbn [obind do_op]. rewrite E1. cbn [obind]. inversion Nd; subst. destruct (IH p1 (fm_put m l (nth (Z.to_nat d) others 0%Z)) I1 H3) as (p' & X & Y & Z); auto.
  - intros k Hk. destruct (HH k (or_intror Hk)) as (Lk & dk & Ek & Hdk). split; auto. exists dk. rewrite fm_get_put. destruct (Nat.eqb_spec l k) as [->|_]; [contradiction|auto].
  - assert (EQ : map (fun l0 => Ins l0 (nth (Z.to_nat (match fm_get (fm_put m l (nth (Z.to_nat d) others 0%Z)) l0 with Some d => d | None => 0%Z end)) others 0%Z)) hs =
                 map (fun l0 => Ins l0 (nth (Z.to_nat (match fm_get m l0 with Some d => d | None => 0%Z end)) others 0%Z)) hs).
    { apply map_ext_in. intros k Hk. rewrite fm_get_put. destruct (Nat.eqb_spec l k) as [->|_]; [contradiction|auto]. }
    rewrite EQ in Y, Z. exists p'. cbn [fm_op]. auto.
Qed.
Theorem C47_local_plan : forall me hg verts vws tys g fuel calls p others,
  constructed me hg verts vws tys g -> length verts < fuel -> made_plan fuel g calls p ->
  (forall o, In o calls -> call_ok g (length others) o) -> (forall r, In r others -> 0 <= r)%Z ->
  exists p' calls', relabel_plan g others p = Some p' /\ made_plan fuel g (calls ++ calls') p' /\
    (forall o, In o calls' -> match o with Ins l d => l < nlv g /\ In d others | Clr => False end) /\
    forall l, l < nlv g -> planned (calls ++ calls') l = option_map (fun d => nth (Z.to_nat d) others 0%Z) (planned calls l).
Proof.
  intros me hg verts vws tys g fuel calls p others HC HF HM HO HN.
  assert (OK : forall o, In o calls -> op_ok g o). { intros o Ho. specialize (HO o Ho). destruct o; cbn in *; auto. split; [tauto|]. lia. }
  destruct (plan_run me hg verts vws tys g calls fuel HC HF OK) as (p0 & p1 & E0 & E1 & I1). destruct HM as (q0 & F0 & F1). rewrite E0 in F0. inversion F0; subst q0. rewrite E1 in F1. inversion F1; subst p1.
  set (m := fm_run calls) in *. assert (SE : pl_sending p = map getVertex (map fst m)). { destruct I1 as (_ & S & _). rewrite S, map_map. reflexivity. }
  assert (GM : forall l, In l (map fst m) -> exists d, fm_get m l = Some d). { intros l Hl. destruct (fm_get m l) eqn:E; eauto. apply fm_get_in in E. contradiction. }
  assert (GI : forall l d, fm_get m l = Some d -> l < nlv g /\ (0 <= d < Z.of_nat (length others))%Z).
  { intros l d E. unfold m in E. rewrite planned_get in E. apply planned_in in E. exact (HO _ E). }
  destruct (relabel_loop others g (map fst m) p m I1 (fm_run_nodup calls)) as (p' & X & Y & Z).
  { intros l Hl. destruct (GM l Hl) as (d & E). destruct (GI l d E). eauto. }
  { intros r Hr. specialize (HN r Hr). lia. }
  set (ins := map (fun l => Ins l (nth (Z.to_nat (match fm_get m l with Some d => d | None => 0%Z end)) others 0%Z)) (map fst m)) in *.
  exists p', ins. split; [unfold relabel_plan; rewrite SE; exact X|]. split; [exists p0; split; auto; rewrite foldM_app, E1; exact Y|]. split.
  - intros o Ho. unfold ins in Ho. apply in_map_iff in Ho as (l & <- & Hl). destruct (GM l Hl) as (d & E). rewrite E. destruct (GI l d E). split; auto. apply nth_In. lia.
  - intros l Ll. rewrite <- !planned_get. unfold fm_run. rewrite fold_left_app. fold (fm_run calls). fold m.
    assert (G : forall hs m0, NoDup hs -> fm_get (fold_left fm_op (map (fun l => Ins l (nth (Z.to_nat (match fm_get m l with Some d => d | None => 0%Z end)) others 0%Z)) hs) m0) l =
       if in_dec Nat.eq_dec l hs then Some (nth (Z.to_nat (match fm_get m l with Some d => d | None => 0%Z end)) others 0%Z) else fm_get m0 l).
    { clear. induction hs as [|k hs IH]; intros m0 Nd; [reflexivity|]. inversion Nd; subst. cbn [map fold_left fm_op]. rewrite IH by auto. rewrite fm_get_put.
      destruct (in_dec Nat.eq_dec l hs) as [I|N]; destruct (in_dec Nat.eq_dec l (k :: hs)) as [I'|N']; cbn in *; try tauto; destruct (Nat.eqb_spec k l) as [->|]; auto; try tauto. }
    unfold ins. rewrite G by apply (fm_run_nodup calls). destruct (in_dec Nat.eq_dec l (map fst m)) as [I|N].
    + destruct (GM l I) as (d & ->). reflexivity.
    + destruct (fm_get m l) eqn:E; [|reflexivity]. exfalso. apply fm_get_in in N. congruence.
Qed.
Print Assumptions C47_local_plan.

(** a concrete case: the two parts of the migration example sit on processes 1 and 3 of five *)
Definition sp_place (p : nat) : nat := 2 * p + 1.
Definition sp_calls : list (list plan_op) := [[Ins 0 0]; [Ins 0 4; Ins 1 3]]%Z.
Definition sp_own' (v : Z) : nat := if Z.eqb v 1 then 0 else if Z.eqb v 2 then 1 else if Z.eqb v 3 then 4 else 3.
Definition sp_orig (fresh : bool) (p : nat) : option (option orig) :=
  pd <- nth_error ex_ps p ;; cs <- nth_error sp_calls p ;;
  g <- build_part (Z.of_nat p) true (pd_verts pd) (pd_vws pd) (pd_tys pd) (pd_owns pd) ;;
  p0 <- plan_new g 200 ;; pl <- foldM (do_op g) cs p0 ;; Some (Some (mkOrig p g (if fresh then None else Some (ainit (pd_oo pd))) pl)).
Definition sp_procs (fresh : bool) : option procs := a <- sp_orig fresh 0 ;; b <- sp_orig fresh 1 ;; Some [None; a; None; b; None].
Example C47_example : exists P, sp_procs true = Some P /\ distributed ex_own ex_V [ex_E] ex_ps /\ placed 200 true sp_place ex_ps sp_calls P /\
  goes_to sp_own' sp_place ex_ps sp_calls /\ big_enough 200 ex_V [ex_E] /\
  (sts <- run_split 200 P ;; mapM (verts_seen 20) sts) = Some [[(1, (5, 1))]; [(2, (6, 1))]; []; [(4, (1, 3))]; [(3, (7, 3))]]%Z /\
  (sts <- run_split 200 P ;; mapM (ghosts_seen 20) sts) = Some [[(2, 1); (4, 3); (3, 4)]; [(3, 4); (4, 3); (1, 0)]; []; [(1, 0); (3, 4); (2, 1)]; [(4, 3); (1, 0); (2, 1)]]%Z.
Proof.
  destruct (sp_procs true) as [P|] eqn:E; [|vm_compute in E; discriminate]. vm_compute in E. inversion E; subst P. clear E. eexists. split; [reflexivity|].
  split; [apply distributedb_ok; vm_compute; reflexivity|]. split; [|split; [|split; [|split; vm_compute; reflexivity]]].
  - split; [reflexivity|]. split.
    + intros [|[|p]] Hp; cbn in *; [..|lia]; eexists; split; reflexivity.
    + intros [|[|[|[|[|R]]]]] o H; cbn in H; try discriminate; [| |destruct R; discriminate]; inversion H; subst o; (split; [reflexivity|]); eexists; eexists;
      (split; [reflexivity|]); (split; [reflexivity|]); (split; [vm_compute; reflexivity|]); (split; [reflexivity|]); (split; [eexists; split; vm_compute; reflexivity|]);
      intros op Hop; cbn in Hop; repeat destruct Hop as [<-|Hop]; try destruct Hop; cbn; lia.
  - intros [|[|p]] pd cs l v Hp Hc Hl; cbn in Hp, Hc; try (destruct p; discriminate); inversion Hp; inversion Hc; subst pd cs; cbn in Hl; destruct l as [|[|l]]; cbn in Hl; try (destruct l; discriminate); inversion Hl; subst v; reflexivity.
  - split; [cbn; lia|]; intros e [<-|[]]; vm_compute; lia.
Qed.

(** When original owners were recorded before the split (for instance by a migration) they are not renamed: vertex 3 was on part 1,
    which is process 3 of the large communicator, but its recorded original owner is still 1, the process of part 0. *)
Theorem C47_stale_original_owner_refuted : exists P, sp_procs false = Some P /\
  (sts <- run_split 200 P ;; mapM (verts_seen 20) sts) = Some [[(1, (5, 0))]; [(2, (6, 0))]; []; [(4, (1, 1))]; [(3, (7, 1))]]%Z.
Proof. destruct (sp_procs false) as [P|] eqn:E; [|vm_compute in E; discriminate]. vm_compute in E. inversion E; subst P. eexists. split; [reflexivity|]. vm_compute. reflexivity. Qed.
Print Assumptions C47_stale_original_owner_refuted.
