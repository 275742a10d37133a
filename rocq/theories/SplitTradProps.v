(** C47 for traditional graphs: splitting to a larger communicator. *)
From Verif Require Import Base GraphModel CsrProofs ConstructProofs GraphSpec AccessProofs AccessProofs2 CountProofs GraphTop GraphTop2 GraphTop3 GraphProps Comm TagModel TagProps MigrateModel MigrateSpec MigrateProofs1 MigrateProofs5 MigrateTop MigrateProps RepartModel RepartProofs SplitModel SplitProofs SplitProps TradSpec TradProofs1 TradProofs2 TradProps.

(** as [placed], for a traditional graph *)
Definition tplaced (fuel : nat) (fresh : bool) (place : nat -> nat) (ps : list pdesc) (calls : list (list plan_op)) (P : procs) : Prop :=
  length calls = length ps /\
  (forall p, p < length ps -> exists o, nth_error P (place p) = Some (Some o) /\ o_rank o = p) /\
  (forall R o, nth_error P R = Some (Some o) -> R = place (o_rank o) /\ exists pd cs,
     nth_error ps (o_rank o) = Some pd /\ nth_error calls (o_rank o) = Some cs /\
     build_part (Z.of_nat (o_rank o)) false (pd_verts pd) (pd_vws pd) (pd_tys pd) (pd_owns pd) = Some (o_g o) /\
     o_oo o = (if fresh then None else Some (ainit (pd_oo pd))) /\
     made_plan fuel (o_g o) cs (o_plan o) /\ forall op, In op cs -> call_ok (o_g o) (length P) op).

Lemma tbuild_void me : build_part me false [] [] [([], [])] [] = Some (with_types (empty_graph me) [ed0]).
Proof. reflexivity. Qed.
Lemma tghost_known own V A w0 r p v : twf V A -> tholds own V A w0 r p -> In v (ghosts_of (pd_verts p) (pd_tys p)) -> In v (map fst V).
Proof.
  intros (_ & WF) (HV & _ & _ & es & ws & Et & PE & _) Hv.
  assert (IP : In v (all_pins (pd_tys p))).
  { clear - Hv. unfold ghosts_of in Hv. revert Hv. generalize (pd_verts p). induction (all_pins (pd_tys p)) as [|x l IH]; intros s H; cbn in *; auto. destruct (existsb (Z.eqb x) s); [right; eauto|]. destruct H as [->|H]; [left; auto|right; eauto]. }
  unfold all_pins in IP. apply in_flat_map in IP as (ty & Hty & IP). rewrite Et in Hty. destruct Hty as [<-|[]]. cbn [fst] in IP.
  unfold pins_of in IP. apply in_concat in IP as (x & Hx & IP). assert (Hx' : In x (map snd es)) by exact Hx. apply (Permutation_in _ PE) in Hx'. apply in_map_iff in Hx' as (a & <- & Ha). apply filter_In in Ha as (Ha & _). destruct (WF a Ha) as (W1 & W2 & _). destruct IP as [<-|[<-|[]]]; auto.
Qed.

Section S.
Variables (fuel : nat) (fresh : bool) (place : nat -> nat) (own own' : Z -> nat) (V : list (Z * (Z * Z))) (A0 : list arc) (w0 : Z).
Variables (ps : list pdesc) (calls : list (list plan_op)) (P : procs).
Hypothesis HD : tdistributed own V A0 w0 ps.
Hypothesis HP : tplaced fuel fresh place ps calls P.
Hypothesis HG : goes_to own' place ps calls.
Hypothesis HB : tfuel fuel V A0.
Hypothesis HN : 0 < length ps.

Let L : list Z := map (fun p => Z.of_nat (place p)) (seq 0 (length ps)).

Lemma place_inj p q : p < length ps -> q < length ps -> place p = place q -> p = q.
Proof.
  intros Hp Hq E. destruct HP as (_ & A & _). destruct (A p Hp) as (o & X & <-). destruct (A q Hq) as (o' & Y & <-). rewrite E in X. congruence.
Qed.
Lemma orig_unique i j o o' : nth_error P i = Some (Some o) -> nth_error P j = Some (Some o') -> o_rank o = o_rank o' -> i = j.
Proof. intros Hi Hj E. destruct HP as (_ & _ & A). destruct (A i o Hi) as (-> & _). destruct (A j o' Hj) as (-> & _). now rewrite E. Qed.

Lemma small_ok : small_size P = length ps.
Proof.
  unfold small_size. set (f := fun o : option orig => match o with Some _ => true | None => false end).
  set (rk := fun o : option orig => match o with Some o => o_rank o | None => 0 end).
  assert (Hin : forall p, In p (map rk (filter f P)) <-> p < length ps).
  { intros p. rewrite in_map_iff. split.
    - intros ([o|] & <- & H); apply filter_In in H as (H & X); [|discriminate]. apply In_nth_error in H as (R & H). destruct HP as (_ & _ & A).
      destruct (A R o H) as (_ & pd & cs & Y & _). cbn. apply nth_error_Some. congruence.
    - intros Hp. destruct HP as (_ & A & _). destruct (A p Hp) as (o & X & <-). exists (Some o). split; auto. apply filter_In. split; auto. eapply nth_error_In; eauto. }
  assert (Nd : NoDup (map rk (filter f P))).
  { assert (G : forall Q, (forall i j o o', nth_error Q i = Some (Some o) -> nth_error Q j = Some (Some o') -> o_rank o = o_rank o' -> i = j) -> NoDup (map rk (filter f Q))).
    { clear. induction Q as [|x Q IH]; intros U; cbn; [constructor|].
      assert (IHH : NoDup (map rk (filter f Q))) by (apply IH; intros i j o o' Hi Hj E; specialize (U (S i) (S j) o o' Hi Hj E); lia).
      destruct x as [o|]; cbn; auto. constructor; auto. intros H. apply in_map_iff in H as ([o'|] & E & H); apply filter_In in H as (H & X); [|discriminate].
      apply In_nth_error in H as (j & H). specialize (U 0 (S j) o o' eq_refl H). assert (0 = S j) by (apply U; cbn in E; congruence). lia. }
    apply G. exact orig_unique. }
  rewrite <- (map_length rk). rewrite <- (seq_length (length ps) 0) at 1. apply Permutation_length. apply NoDup_Permutation; auto using seq_NoDup.
  intros p. rewrite Hin, in_seq. lia.
Qed.
Lemma ranks_ok : new_ranks P = Some L.
Proof.
  unfold new_ranks. rewrite small_ok. apply mapM_some. intros p Hp. apply in_seq in Hp. destruct HP as (_ & A & _). destruct (A p) as (o & X & Y); [lia|].
  rewrite (rank_from_spec P p 0) with (i := place p) (o := o); auto; [eauto|]. exact orig_unique.
Qed.
Lemma nth_L p : p < length ps -> nth p L 0%Z = Z.of_nat (place p).
Proof. intros Hp. unfold L. rewrite (nth_indep _ 0%Z (Z.of_nat (place 0))) by (rewrite map_length, seq_length; lia). rewrite (map_nth (fun p => Z.of_nat (place p))), seq_nth by lia. reflexivity. Qed.

Definition desc2 (Ro : nat * option orig) : pdesc :=
  match snd Ro with
  | Some o => match nth_error ps (o_rank o) with
              | Some pd => mkPD (pd_verts pd) (pd_vws pd) (pd_tys pd) (rename L (pd_owns pd)) (if fresh then repeat (Z.of_nat (fst Ro)) (length (pd_verts pd)) else pd_oo pd)
              | None => mkPD [] [] [] [] [] end
  | None => mkPD [] [] [([], [])] [] []
  end.
Definition calls2 (o : option orig) : list plan_op :=
  match o with Some o => match nth_error calls (o_rank o) with Some cs => cs | None => [] end | None => [] end.
Let RP := combine (seq 0 (length P)) P.
Let ps2 := map desc2 RP.
Let cs2 := map calls2 P.
Lemma nth_RP R x : nth_error RP R = Some x <-> fst x = R /\ nth_error P R = Some (snd x).
Proof.
  unfold RP. assert (G : forall (l : procs) a R, nth_error (combine (seq a (length l)) l) R = option_map (fun o => (a + R, o)) (nth_error l R)).
  { clear. induction l as [|y l IH]; intros a [|R]; cbn; auto. - now rewrite Nat.add_0_r. - rewrite IH. replace (a + S R) with (S a + R) by lia. reflexivity. }
  rewrite G. cbn. destruct x as (r, o). destruct (nth_error P R) as [y|]; cbn; split.
  - intros H; inversion H; auto. - intros (-> & H); inversion H; auto. - discriminate. - intros (_ & H); discriminate.
Qed.
Lemma len_RP : length RP = length P.
Proof. unfold RP. rewrite combine_length, seq_length. lia. Qed.
Lemma ps2_nth R pd : nth_error ps2 R = Some pd -> exists o, nth_error P R = Some o /\ pd = desc2 (R, o).
Proof. unfold ps2. rewrite nth_error_map. destruct (nth_error RP R) as [(r, o)|] eqn:E; [|discriminate]. intros H. inversion H; subst. apply nth_RP in E as (<- & E). eauto. Qed.

Lemma fuel_pos : 0 < fuel. Proof. destruct HB as (H & _). lia. Qed.
Lemma own_lt v : In v (map fst V) -> own v < length ps. Proof. intros H. now apply HD. Qed.

(** the process R of the large communicator before the migration *)
Lemma prep_ok R o : nth_error P R = Some o -> exists s, split_prep fuel L (R, o) = Some s /\
  match o with
  | Some _ => built_from false R (desc2 (R, o)) (mp_g s, mp_oo s) /\ made_plan fuel (mp_g s) (calls2 o) (mp_plan s) /\ (forall op, In op (calls2 o) -> call_ok (mp_g s) (length P) op) /\ ntypes (mp_g s) = 1 /\ hyper (mp_g s) = false
  | None => s = mkMP (empty_graph (Z.of_nat R)) [] (mkPlan [] [])
  end.
Proof.
  intros HR. destruct o as [o|].
  - destruct HP as (_ & _ & A). destruct (A R o HR) as (ER & pd & cs & Hp & Hc & BP & OO & MP & CK). destruct HD as ((WF0 & _ & HH) & HHO). pose proof (HH _ _ Hp) as (HV & Lo & PV & es & ws & Et & PE & HW). pose proof (HHO pd (nth_error_In _ _ Hp)) as HO.
    destruct (expanded_build (Z.of_nat (o_rank o)) (Z.of_nat R) false _ _ _ _ _ L HV BP) as (g1 & C1 & B1).
    { intros v Hv. exists (Z.of_nat (own v)). split; [now apply HO|]. unfold L. rewrite map_length, seq_length.
      assert (own v < length ps); [|lia]. apply own_lt. eapply tghost_known; [exact WF0|exact (HH _ _ Hp)|exact Hv]. }
    assert (NL : nlv g1 = nlv (o_g o)). { unfold changeOwners in C1. match type of C1 with obind ?x _ = _ => destruct x; [|discriminate] end. cbn in C1. inversion C1; reflexivity. }
    assert (NT : types g1 = types (o_g o)). { unfold changeOwners in C1. match type of C1 with obind ?x _ = _ => destruct x; [|discriminate] end. cbn in C1. inversion C1; reflexivity. }
    destruct (part_rep _ _ _ _ _ _ _ HV B1) as (HR1 & _ & Hh1 & _).
    assert (NV : nlv (o_g o) = length (pd_verts pd)) by (rewrite <- NL; exact (rp_nlv _ _ _ _ _ HR1)).
    unfold split_prep. rewrite C1. cbn [obind]. rewrite OO.
    assert (OK : setOriginalOwners (with_self g1 (Z.of_nat R)) (if fresh then None else Some (ainit (pd_oo pd))) =
                 Some (ainit (if fresh then repeat (Z.of_nat R) (length (pd_verts pd)) else pd_oo pd))).
    { destruct fresh; [|reflexivity]. unfold setOriginalOwners. cbn [with_self self nlv]. rewrite NL, NV. clear.
      assert (G : forall n k, foldM (fun (a : arr Z) i => aset a i (Z.of_nat R)) (seq k n) (ainit (repeat (Z.of_nat R) k) ++ anew n) = Some (ainit (repeat (Z.of_nat R) (k + n)))).
      { induction n as [|n IH]; intros k; cbn [seq foldM anew repeat]; [now rewrite app_nil_r, Nat.add_0_r|].
        assert (Lk : length (ainit (repeat (Z.of_nat R) k)) = k) by (unfold ainit; rewrite map_length, repeat_length; auto).
        rewrite aset_some by (rewrite app_length, Lk; cbn; lia). cbn [obind].
        assert (U : forall (a : arr Z) r x, upd (a ++ None :: r) (length a) (Some x) = a ++ Some x :: r) by (clear; induction a as [|y a IHa]; intros; cbn; [reflexivity|now rewrite IHa]).
        assert (UU : upd (ainit (repeat (Z.of_nat R) k) ++ None :: repeat None n) k (Some (Z.of_nat R)) = ainit (repeat (Z.of_nat R) k) ++ Some (Z.of_nat R) :: repeat None n) by (rewrite <- (U _ (repeat None n)); now rewrite Lk).
        rewrite UU. specialize (IH (S k)). replace (k + S n) with (S k + n) by lia. rewrite <- IH. f_equal. assert (RS : repeat (Z.of_nat R) (S k) = repeat (Z.of_nat R) k ++ [Z.of_nat R]) by (clear; induction k as [|k IHk]; cbn; [reflexivity|]; f_equal; exact IHk). rewrite RS. unfold ainit, anew. rewrite map_app, <- app_assoc. reflexivity. }
      exact (G (length (pd_verts pd)) 0). }
    rewrite OK. cbn [obind]. eexists. split; [reflexivity|]. cbn [mp_g mp_oo mp_plan]. unfold desc2, calls2. cbn [fst snd]. rewrite Hp, Hc. cbn [pd_verts pd_vws pd_tys pd_owns pd_oo].
    split; [split; [exact B1|reflexivity]|]. split; [|split; [|split]].
    + destruct MP as (p0 & M1 & M2). exists p0. unfold plan_new, create_tag, all_verts, vit_step in *. cbn [with_self nlv] in *. rewrite NL. split; [exact M1|].
      rewrite <- M2. apply foldM_ext_in. intros p op _. destruct op as [l d|]; cbn [do_op]; [|reflexivity].
      unfold plan_insert, plan_has, get_vtag. cbn [with_self nlv]. rewrite NL. reflexivity.
    + intros op Hop. specialize (CK op Hop). destruct op as [l d|]; cbn [call_ok] in *; auto. cbn [with_self nlv]. rewrite NL. exact CK.
    + unfold ntypes. cbn [with_self types]. pose proof (rp_types _ _ _ _ _ HR1) as F2. apply F2_length in F2. cbn [with_self types] in F2. rewrite <- F2, map_length, Et. reflexivity.
    + exact Hh1.
  - unfold split_prep, plan_new. cbn [empty_graph nlv Nat.eqb obind setOriginalOwners seq foldM anew repeat]. eexists. split; [reflexivity|reflexivity].
Qed.

Lemma holds2 R o : nth_error P R = Some o -> tholds (fun v => place (own v)) (recorded fresh place own V) A0 w0 R (desc2 (R, o)) /\ tghosts (fun v => place (own v)) (desc2 (R, o)).
Proof.
  intros HR. destruct o as [o|].
  - destruct HP as (_ & _ & A). destruct (A R o HR) as (ER & pd & cs & Hp & Hc & BP & OO & MP & CK). pose proof HD as HD'. destruct HD' as ((WF & OL & HH) & HHO). pose proof (HH _ _ Hp) as (HV & Lo & PV & es & ws & Et & PE & HW). pose proof (HHO pd (nth_error_In _ _ Hp)) as HO.
    assert (Lp : o_rank o < length ps) by (apply nth_error_Some; congruence).
    unfold desc2. cbn [fst snd]. rewrite Hp. unfold tholds, tghosts. cbn [pd_verts pd_vws pd_tys pd_owns pd_oo]. split; [split; [exact HV|]; split; [destruct fresh; [apply repeat_length|exact Lo]|]|].
    all: cycle 1.
    { intros v Hv. rewrite zfind_rename, (HO v Hv). cbn. f_equal. rewrite Nat2Z.id. apply nth_L. apply OL. eapply tghost_known; [exact WF|exact (HH _ _ Hp)|exact Hv]. }
    assert (OE : forall v, In v (map fst V) -> (place (own v) =? R) = (own v =? o_rank o)).
    { intros v Hv. destruct (Nat.eqb_spec (own v) (o_rank o)) as [->|N]; [rewrite ER; apply Nat.eqb_refl|]. apply Nat.eqb_neq. intros E. apply N. apply place_inj; auto. congruence. }
    assert (FV : filter (fun v => place (own (fst v)) =? R) V = filter (fun v => own (fst v) =? o_rank o) V).
    { apply filter_ext_in. intros v Hv. apply OE. now apply in_map. }
    split.
    + unfold recorded. destruct fresh.
      * set (f := fun v : Z * (Z * Z) => (fst v, (fst (snd v), Z.of_nat (place (own (fst v)))))).
        assert (FM : filter (fun v => place (own (fst v)) =? R) (map f V) = map f (filter (fun v => place (own (fst v)) =? R) V)).
        { generalize V. clear. induction V as [|x l IH]; cbn; auto. destruct (place (own (fst x)) =? R); cbn; now rewrite IH. }
        rewrite FM, FV. assert (VR : vrecs (mkPD (pd_verts pd) (pd_vws pd) (pd_tys pd) (rename L (pd_owns pd)) (repeat (Z.of_nat R) (length (pd_verts pd)))) = map f (vrecs pd)).
        { assert (OV : forall v, In v (pd_verts pd) -> place (own v) = R).
          { intros v Hv. assert (In v (map fst (vrecs pd))).
            { unfold vrecs. clear - Hv Lo HV. destruct HV as (_ & Lw & _).
              assert (LW : length (vweights pd) = length (pd_verts pd)) by (unfold vweights; rewrite app_length, repeat_length; lia).
              assert (LC : length (combine (vweights pd) (pd_oo pd)) = length (pd_verts pd)) by (rewrite combine_length; lia).
              revert LC Hv. generalize (combine (vweights pd) (pd_oo pd)). generalize (pd_verts pd). clear. induction l as [|a l IH]; intros [|b k] LC Hv; cbn in *; try discriminate; auto. destruct Hv; auto. }
            apply in_map_iff in H as (x & <- & Hx). apply (Permutation_in _ PV) in Hx. apply filter_In in Hx as (_ & Hx). apply Nat.eqb_eq in Hx. now rewrite Hx. }
          unfold vrecs, vweights. cbn [pd_verts pd_vws pd_oo]. destruct HV as (_ & Lw & _).
          assert (LW : length (pd_vws pd ++ repeat 1%Z (length (pd_verts pd) - length (pd_vws pd))) = length (pd_verts pd)) by (rewrite app_length, repeat_length; lia).
          revert LW Lo OV. generalize (pd_vws pd ++ repeat 1%Z (length (pd_verts pd) - length (pd_vws pd))). generalize (pd_verts pd) (pd_oo pd). unfold f. clear.
          induction l as [|a l IH]; intros [|b k] [|c m] A B OV; cbn in *; try discriminate; auto. f_equal; [rewrite (OV a); auto|]. apply IH; auto. }
        rewrite VR. now apply Permutation_map.
      * rewrite FV. exact PV.
    + exists es, ws. split; [exact Et|]. split; [|exact HW]. assert (FE : filter (fun a => place (own (fst a)) =? R) A0 = filter (fun a => own (fst a) =? o_rank o) A0); [|rewrite FE; exact PE].
      apply filter_ext_in. intros a Ha. apply OE. now apply WF.
  - (* nothing lives on a process outside the small communicator *)
    assert (NO : forall v, In v (map fst V) -> place (own v) <> R).
    { intros v Hv E. destruct HP as (_ & A & _). destruct (A (own v) (own_lt v Hv)) as (o & X & _). rewrite E in X. congruence. }
    unfold desc2. cbn [fst snd]. unfold tholds, tghosts. cbn [pd_verts pd_vws pd_tys pd_owns pd_oo]. split; [split|intros v []].
    { split; [constructor|]. split; [cbn; lia|]. split; [cbn; lia|]. intros es ws [H|[]]. inversion H; subst. split; [auto|]. intros _ e []. }
    split; [reflexivity|]. split.
    + assert (FN : filter (fun v => place (own (fst v)) =? R) (recorded fresh place own V) = []); [|rewrite FN; constructor].
      assert (IV : forall v, In v (recorded fresh place own V) -> In (fst v) (map fst V)).
      { intros v. unfold recorded. destruct fresh; [|apply in_map]. intros H. apply in_map_iff in H as (x & <- & H). cbn. now apply in_map. }
      revert IV. generalize (recorded fresh place own V). clear - NO. induction l as [|x l IH]; intros IV; cbn; auto. destruct (Nat.eqb_spec (place (own (fst x))) R) as [E|_].
      * exfalso. apply (NO (fst x)); auto. apply IV. left; auto. * apply IH. intros; apply IV. right; auto.
    + exists [], []. split; [reflexivity|]. split; [|constructor]. assert (FN : filter (fun a => place (own (fst a)) =? R) A0 = []); [|rewrite FN; constructor].
      destruct HD as (((_ & WF) & _) & _). revert WF. generalize A0. clear - NO. induction A0 as [|e l IH]; intros W2; cbn; auto.
      destruct (Nat.eqb_spec (place (own (fst e))) R) as [E|_]; [exfalso; apply (NO (fst e)); auto; apply (W2 e); left; auto|]. apply IH. intros a Ha. apply W2. right; auto.
Qed.

Definition ttwin (s : mpart) : mpart := if ntypes (mp_g s) =? 0 then mkMP (with_types (mp_g s) [ed0]) (mp_oo s) (mp_plan s) else s.

Lemma tsplit_reduce : exists ps2 cs2 sts2, length ps2 = length P /\ tdistributed (fun v => place (own v)) (recorded fresh place own V) A0 w0 ps2 /\
  ready false fuel ps2 cs2 sts2 /\ moved_to own' ps2 cs2 /\ tfuel fuel (recorded fresh place own V) A0 /\ forall Q, migrate fuel sts2 Q -> split fuel P Q.
Proof.
  assert (MS : exists sts, mapM (split_prep fuel L) RP = Some sts).
  { apply mapM_forall. intros (R, o) H. apply In_nth_error in H as (i & H). apply nth_RP in H as (<- & H). cbn [fst snd] in H. destruct (prep_ok _ _ H) as (s & E & _). eauto. }
  destruct MS as (sts & MS). 
  assert (NS : forall R o, nth_error P R = Some o -> exists s, nth_error sts R = Some s /\ match o with
    | Some _ => built_from false R (desc2 (R, o)) (mp_g s, mp_oo s) /\ made_plan fuel (mp_g s) (calls2 o) (mp_plan s) /\ (forall op, In op (calls2 o) -> call_ok (mp_g s) (length P) op) /\ ntypes (mp_g s) = 1 /\ hyper (mp_g s) = false
    | None => s = mkMP (empty_graph (Z.of_nat R)) [] (mkPlan [] []) end).
  { intros R o HR. destruct (mapM_nth _ _ _ _ _ R (R, o) MS) as (s & X & Y); [apply nth_RP; auto|]. destruct (prep_ok _ _ HR) as (s' & Y' & H). rewrite Y in Y'. inversion Y'; subst s'. eauto. }
  assert (LS : length sts = length P) by (rewrite (mapM_length _ _ _ _ _ MS); exact len_RP).
  assert (HY : existsb (fun s => hyper (mp_g s)) sts = false).
  { apply not_true_iff_false. intros X. apply existsb_exists in X as (s & Hs & X). apply In_nth_error in Hs as (R & Hs). assert (LR : R < length P) by (rewrite <- LS; apply nth_error_Some; congruence). destruct (nth_error P R) as [o|] eqn:Eo; [|apply nth_error_None in Eo; lia].
    destruct (NS _ _ Eo) as (s' & Hs' & H). assert (s' = s) by congruence. subst s'. destruct o as [o|]; [destruct H as (_ & _ & _ & _ & H); congruence|subst s; discriminate]. }
  set (u := fun s => mkMP (with_hyper (mp_g s) false) (mp_oo s) (mp_plan s)).
  assert (NU : forall R s, nth_error sts R = Some s -> exists o, nth_error P R = Some o /\ match o with
    | Some _ => u s = s /\ built_from false R (desc2 (R, o)) (mp_g s, mp_oo s) /\ made_plan fuel (mp_g s) (calls2 o) (mp_plan s) /\ (forall op, In op (calls2 o) -> call_ok (mp_g s) (length P) op) /\ ntypes (mp_g s) = 1
    | None => s = mkMP (empty_graph (Z.of_nat R)) [] (mkPlan [] []) end).
  { intros R s HR. assert (LR : R < length P) by (rewrite <- LS; apply nth_error_Some; congruence). destruct (nth_error P R) as [o|] eqn:Eo; [|apply nth_error_None in Eo; lia].
    destruct (NS _ _ Eo) as (s' & X & H). rewrite HR in X. inversion X; subst s'. exists o. split; auto. destruct o as [o|]; auto. destruct H as (A & B & C & D & E). split; auto.
    unfold u. destruct s as [g oo pl]. cbn [mp_g mp_oo mp_plan] in *. f_equal. destruct g; cbn in *. unfold with_hyper. cbn. now rewrite E. }
  assert (SIM : Forall2 (sim [] [ed0]) (map u sts) (map ttwin (map u sts))).
  { rewrite map_map. assert (G : forall l, (forall s, In s l -> exists R, nth_error sts R = Some s) -> Forall2 (sim [] [ed0]) (map u l) (map (fun x => ttwin (u x)) l)).
    { induction l as [|s l IH]; intros HI; cbn; constructor; [|apply IH; intros; apply HI; right; auto].
      destruct (HI s (or_introl eq_refl)) as (R & HR). destruct (NU _ _ HR) as ([o|] & HPo & H).
      - destruct H as (Eu & _ & _ & _ & NT). rewrite Eu. left. unfold ttwin. rewrite NT. reflexivity.
      - subst s. right. exists (with_hyper (empty_graph (Z.of_nat R)) false). unfold u, ttwin. cbn. repeat split. }
    apply G. intros s Hs. now apply In_nth_error. }
  assert (LC : length calls = length ps) by apply HP.
  assert (HD2 : tdistributed (fun v => place (own v)) (recorded fresh place own V) A0 w0 ps2).
  { assert (MF : map fst (recorded fresh place own V) = map fst V). { unfold recorded. destruct fresh; auto. rewrite map_map. reflexivity. }
    split; [split; [|split]|].
    - split; [rewrite MF; apply HD|]. intros a Ha. rewrite MF. now apply HD.
    - intros v Hv. rewrite MF in Hv. unfold ps2. rewrite map_length, len_RP. destruct HP as (_ & A & _). destruct (A (own v) (own_lt v Hv)) as (o & X & _). apply nth_error_Some. congruence.
    - intros R pd HR. apply ps2_nth in HR as (o & HR & ->). now apply holds2.
    - intros pd HR. apply In_nth_error in HR as (R & HR). apply ps2_nth in HR as (o & HR & ->). now apply holds2. }
  assert (RDY : ready false fuel ps2 cs2 (map ttwin (map u sts))).
  { unfold ready. unfold ps2 at 1 2. unfold cs2 at 1. rewrite !map_length, len_RP. split; [exact LS|]. split; [reflexivity|].
    intros R pd cs s HR HC HSs. apply ps2_nth in HR as (o & HR & ->). unfold cs2 in HC. rewrite nth_error_map, HR in HC. cbn in HC. inversion HC; subst cs. clear HC.
    rewrite !nth_error_map in HSs. destruct (nth_error sts R) as [s0|] eqn:E0s; [|discriminate]. cbn in HSs. inversion HSs; subst s. clear HSs.
    unfold ps2. rewrite map_length, len_RP. destruct (NU _ _ E0s) as (o' & HPo & H). rewrite HR in HPo. inversion HPo; subst o'. destruct o as [o|].
    - destruct H as (Eu & A & B & C & NT). rewrite Eu. unfold ttwin. rewrite NT. cbn [Nat.eqb]. auto.
    - subst s0. unfold u, ttwin. cbn [mp_g with_hyper empty_graph ntypes types length Nat.eqb mp_oo mp_plan]. split; [split; [exact (tbuild_void (Z.of_nat R))|reflexivity]|].
      split; [exists (mkPlan [] []); split; reflexivity|]. intros op []. }
  assert (MV : moved_to own' ps2 cs2).
  { intros R pd cs l v HR HC Hl. apply ps2_nth in HR as (o & HR & ->). unfold cs2 in HC. rewrite nth_error_map, HR in HC. cbn in HC. inversion HC; subst cs. clear HC.
    destruct o as [o|]; [|destruct l; discriminate]. destruct HP as (_ & _ & A). destruct (A R o HR) as (ER & pd & cs & Hp & Hc & _).
    unfold desc2 in Hl. cbn [fst snd] in Hl. rewrite Hp in Hl. cbn [pd_verts] in Hl. unfold calls2. rewrite Hc. specialize (HG _ _ _ _ _ Hp Hc Hl). destruct (planned cs l); auto. congruence. }
  assert (BE : tfuel fuel (recorded fresh place own V) A0).
  { destruct HB as (B1 & B2). split; auto. unfold recorded. destruct fresh; auto. now rewrite map_length. }
  assert (MT : max_types (map ttwin (map u sts)) = 1 /\ max_types (map u sts) = 1).
  { assert (G : forall l, (forall x, In x l -> x = 0 \/ x = 1) -> In 1 l -> fold_right Nat.max 0 l = 1).
    { clear. induction l as [|x l IH]; intros A H; [destruct H|]. destruct H as [->|H]; cbn [fold_right]; [|assert (E : fold_right Nat.max 0 l = 1) by (apply IH; [intros; apply A; right; auto|exact H])].
      - assert (fold_right Nat.max 0 l <= 1); [|lia]. clear - A. assert (A' : forall x, In x l -> x <= 1) by (intros x Hx; destruct (A x (or_intror Hx)); lia). clear A. induction l as [|x l IH]; cbn [fold_right]; [lia|]. pose proof (A' x (or_introl eq_refl)). assert (fold_right Nat.max 0 l <= 1) by (apply IH; intros; apply A'; right; auto). lia.
      - rewrite E. destruct (A x (or_introl eq_refl)); lia. }
    destruct HP as (_ & A & _). destruct (A 0 HN) as (o & X & _). destruct (NS _ _ X) as (s & Y & H). pose proof H as H'. destruct H' as (_ & _ & _ & NT & _).
    assert (Us : u s = s). { destruct (NU _ _ Y) as (o' & Z1 & Z2). rewrite X in Z1. inversion Z1; subst o'. apply Z2. }
    unfold max_types. rewrite !map_map. split; apply G.
    - intros x Hx. apply in_map_iff in Hx as (s0 & <- & Hs). apply In_nth_error in Hs as (R & HR). destruct (NU _ _ HR) as ([o'|] & _ & Z2).
      + destruct Z2 as (-> & _ & _ & _ & NT'). unfold ttwin. rewrite NT'. cbn. auto. + subst s0. auto.
    - apply in_map_iff. exists s. split; [|eapply nth_error_In; eauto]. rewrite Us. unfold ttwin. rewrite NT. cbn. exact NT.
    - intros x Hx. apply in_map_iff in Hx as (s0 & <- & Hs). apply In_nth_error in Hs as (R & HR). destruct (NU _ _ HR) as ([o'|] & _ & Z2).
      + destruct Z2 as (-> & _ & _ & _ & NT'). auto. + subst s0. auto.
    - apply in_map_iff. exists s. split; [|eapply nth_error_In; eauto]. rewrite Us. exact NT. }
  destruct MT as (M2 & M1).
  assert (A1 : forall ed, In ed [] -> e_num ed = 0) by (intros ed []).
  assert (A2 : forall ed, In ed [ed0] -> e_num ed = 0) by (intros ed [<-|[]]; reflexivity).
  assert (A3 : max_types (map u sts) = max_types (map ttwin (map u sts))) by lia.
  assert (A4 : max_types (map ttwin (map u sts)) <= 7) by lia.
  assert (A5 : length [ed0] <= 7) by (cbn; lia).
  exists ps2, cs2, (map ttwin (map u sts)). split; [unfold ps2; rewrite map_length; exact len_RP|]. split; [exact HD2|]. split; [exact RDY|]. split; [exact MV|]. split; [exact BE|].
  intros Q HQ. exists L, sts. split; [exact ranks_ok|]. split; [exact MS|]. unfold unify. rewrite HY.
  exact (migrate_sim fuel [] [ed0] fuel_pos A1 A2 A5 (map u sts) (map ttwin (map u sts)) Q SIM A3 A4 HQ).
Qed.
End S.

(** ** theorems *)
Lemma tplace_inj fuel fresh place ps calls P p q : tplaced fuel fresh place ps calls P -> p < length ps -> q < length ps -> place p = place q -> p = q.
Proof. intros (_ & A & _) Hp Hq E. destruct (A p Hp) as (o & X & <-). destruct (A q Hq) as (o' & Y & <-). rewrite E in X. congruence. Qed.
(** The whole split of a traditional graph (one edge type, equal edge weights), whatever the placement, the plan and the order of messages: every vertex is on the
    process the plan says and only there, and every arc is on the process of its source as often as before, except the arcs inside one part of the small
    communicator whose source stays while their target moves: exactly those are gone. *)
Theorem C47_traditional_partial : forall fuel fresh place own own' V A w0 ps calls P,
  tdistributed own V A w0 ps -> tplaced fuel fresh place ps calls P -> goes_to own' place ps calls -> tfuel fuel V A -> 0 < length ps ->
  split fuel P (fun sts' => length sts' = length P /\ exists ps', length ps' = length P /\
    tshared own' (recorded fresh place own V) (surviving (fun v => place (own v)) own' A) w0 ps' /\
    forall R p' s', nth_error ps' R = Some p' -> nth_error sts' R = Some s' -> built_from false R p' s').
Proof.
  intros fuel fresh place own own' V A w0 ps calls P HD HP HG HB HN. destruct (tsplit_reduce fuel fresh place own own' V A w0 ps calls P HD HP HG HB HN) as (ps2 & cs2 & sts2 & L & D2 & R2 & M2 & F2 & K).
  apply K. eapply migrate_mono; [|exact (C18_surviving_partial _ _ _ _ _ _ _ _ _ D2 R2 M2 F2)]. intros sts' (ps' & L1 & L2 & H1 & H2). split; [congruence|]. exists ps'. split; [congruence|]. auto.
Qed.
Print Assumptions C47_traditional_partial.

(** no arc inside a part loses its target, and every cut arc is answered: the result is a correct distribution again, with all arcs and right owners of ghosts *)
Theorem C47_traditional_distributed_partial : forall fuel fresh place own own' V A w0 ps calls P,
  tdistributed own V A w0 ps -> tplaced fuel fresh place ps calls P -> goes_to own' place ps calls -> tfuel fuel V A -> 0 < length ps -> symmetric_cut own A ->
  (forall a, In a A -> own (fst a) = own (snd a) -> own' (snd a) <> place (own (snd a)) -> own' (fst a) <> place (own (fst a))) ->
  split fuel P (fun sts' => length sts' = length P /\ exists ps', length ps' = length P /\ tdistributed own' (recorded fresh place own V) A w0 ps' /\
    forall R p' s', nth_error ps' R = Some p' -> nth_error sts' R = Some s' -> built_from false R p' s').
Proof.
  intros fuel fresh place own own' V A w0 ps calls P HD HP HG HB HN SY LL. destruct (tsplit_reduce fuel fresh place own own' V A w0 ps calls P HD HP HG HB HN) as (ps2 & cs2 & sts2 & L & D2 & R2 & M2 & F2 & K).
  assert (IN : forall a, In a A -> own (fst a) < length ps /\ own (snd a) < length ps) by (intros a Ha; destruct HD as (((_ & W) & OL & _) & _); destruct (W a Ha) as (W1 & W2 & _); auto).
  apply K. eapply migrate_mono; [|apply (C18_distributed_partial _ own' _ _ _ _ _ _ _ D2 R2 M2 F2)].
  - intros sts' (ps' & L1 & L2 & H1 & H2). split; [congruence|]. exists ps'. split; [congruence|]. auto.
  - intros a Ha Hne. assert (N : own (fst a) <> own (snd a)) by congruence. destruct (SY a Ha N) as (x & Hx & Ex). exists x. split; [auto|congruence].
  - intros a Ha E. destruct (IN a Ha) as (I1 & I2). intros X. apply (LL a Ha); auto. exact (tplace_inj _ _ _ _ _ _ _ _ HP I1 I2 E).
Qed.
Print Assumptions C47_traditional_distributed_partial.

(** The usual case violates the property: whenever the plan splits a part between the two ends of an arc whose source stays, the arc is on no process afterwards *)
Theorem C47_traditional_refuted : forall fuel fresh place own own' V A w0 ps calls P a,
  tdistributed own V A w0 ps -> tplaced fuel fresh place ps calls P -> goes_to own' place ps calls -> tfuel fuel V A -> 0 < length ps ->
  In a A -> own (fst a) = own (snd a) -> own' (fst a) = place (own (fst a)) -> own' (snd a) <> place (own (snd a)) ->
  split fuel P (fun sts' => exists ps' A', length ps' = length P /\ tshared own' (recorded fresh place own V) A' w0 ps' /\ ~ In a A' /\
    forall R p' s', nth_error ps' R = Some p' -> nth_error sts' R = Some s' -> built_from false R p' s').
Proof.
  intros fuel fresh place own own' V A w0 ps calls P a HD HP HG HB HN Ha E1 E2 E3. pose proof (C47_traditional_partial fuel fresh place own own' V A w0 ps calls P HD HP HG HB HN) as (nr & sts & X & Y & M). exists nr, sts. split; auto. split; auto.
  eapply migrate_mono; [|exact M]. intros sts' (_ & ps' & L & S & B). exists ps', (surviving (fun v => place (own v)) own' A). split; auto. split; auto. split; auto.
  intros H. apply filter_In in H as (_ & H). unfold survives in H. cbv beta in H. rewrite E1, Nat.eqb_refl in H. cbn [andb] in H. apply Nat.eqb_neq in E3. rewrite E3 in H. assert (E4 : own' (fst a) =? place (own (snd a)) = true) by (apply Nat.eqb_eq; congruence). rewrite E4 in H. discriminate.
Qed.
Print Assumptions C47_traditional_refuted.

(** ** The hypotheses are met *)
(** the two parts of the path 1 - 2 - 3 - 4 sit on processes 1 and 3 of five; part 1 moves as a whole to process 4, nothing is lost.  In the second plan vertex 2
    leaves part 0 and the arc 1 -> 2 is lost *)
Definition tsp_ps : list pdesc := firstn 2 tex_ps.
Definition tsp_calls : list (list plan_op) := [[]; [Ins 0 4; Ins 1 4]]%Z.
Definition tsp_own' (v : Z) : nat := if Z.leb v 2 then 1 else 4.
Definition tsp_calls2 : list (list plan_op) := [[Ins 1 0]; []]%Z.
Definition tsp_own2 (v : Z) : nat := if Z.eqb v 1 then 1 else if Z.eqb v 2 then 0 else 3.
Definition tsp_orig (calls : list (list plan_op)) (p : nat) : option (option orig) :=
  pd <- nth_error tsp_ps p ;; cs <- nth_error calls p ;;
  g <- build_part (Z.of_nat p) false (pd_verts pd) (pd_vws pd) (pd_tys pd) (pd_owns pd) ;;
  p0 <- plan_new g 20 ;; pl <- foldM (do_op g) cs p0 ;; Some (Some (mkOrig p g None pl)).
Definition tsp_procs (calls : list (list plan_op)) : option procs := a <- tsp_orig calls 0 ;; b <- tsp_orig calls 1 ;; Some [None; a; None; b; None].
Lemma tsp_met calls own' P : (calls = tsp_calls /\ own' = tsp_own' \/ calls = tsp_calls2 /\ own' = tsp_own2) -> tsp_procs calls = Some P ->
  tplaced 20 true sp_place tsp_ps calls P /\ goes_to own' sp_place tsp_ps calls.
Proof.
  intros HC E. destruct HC as [(-> & ->)|(-> & ->)]; vm_compute in E; injection E as <-; (split; [split; [reflexivity|]; split|]).
  1, 4: intros [|[|p]] Hp; cbn in *; [..|lia]; eexists; split; reflexivity.
  1, 3: intros [|[|[|[|[|R]]]]] o H; cbn in H; try discriminate; [| |destruct R; discriminate]; inversion H; subst o; (split; [reflexivity|]); eexists; eexists;
      (split; [reflexivity|]); (split; [reflexivity|]); (split; [vm_compute; reflexivity|]); (split; [reflexivity|]); (split; [eexists; split; vm_compute; reflexivity|]);
      intros op Hop; cbn in Hop; repeat destruct Hop as [<-|Hop]; try destruct Hop; cbn; lia.
  all: intros [|[|p]] pd cs l v Hp Hc Hl; cbn in Hp, Hc; try (destruct p; discriminate); inversion Hp; inversion Hc; subst pd cs; cbn in Hl; destruct l as [|[|l]]; cbn in Hl; try (destruct l; discriminate); inversion Hl; subst v; reflexivity.
Qed.
Example C47_traditional_example : exists P P2, tsp_procs tsp_calls = Some P /\ tsp_procs tsp_calls2 = Some P2 /\ tdistributed tex_own tex_V tex_A 1 tsp_ps /\
  tplaced 20 true sp_place tsp_ps tsp_calls P /\ goes_to tsp_own' sp_place tsp_ps tsp_calls /\ tfuel 20 tex_V tex_A /\ symmetric_cut tex_own tex_A /\
  (forall a, In a tex_A -> tex_own (fst a) = tex_own (snd a) -> tsp_own' (snd a) <> sp_place (tex_own (snd a)) -> tsp_own' (fst a) <> sp_place (tex_own (fst a))) /\
  (sts <- run_split 20 P ;; mapM (edges_seen 20 0) sts) = Some [[]; [(0, [1; 2]); (1, [2; 1]); (2, [2; 3])]; []; []; [(0, [3; 2]); (1, [3; 4]); (2, [4; 3])]]%Z /\
  tplaced 20 true sp_place tsp_ps tsp_calls2 P2 /\ goes_to tsp_own2 sp_place tsp_ps tsp_calls2 /\
  In (1, 2)%Z tex_A /\ tex_own 1 = tex_own 2 /\ tsp_own2 1 = sp_place (tex_own 1) /\ tsp_own2 2 <> sp_place (tex_own 2) /\
  (sts <- run_split 20 P2 ;; mapM (edges_seen 20 0) sts) = Some [[(0, [2; 1]); (1, [2; 3])]; []; []; [(0, [3; 2]); (1, [3; 4]); (2, [4; 3])]; []]%Z.
Proof.
  destruct (tsp_procs tsp_calls) as [P|] eqn:E; [|vm_compute in E; discriminate]. destruct (tsp_procs tsp_calls2) as [P2|] eqn:E2; [|vm_compute in E2; discriminate]. exists P, P2.
  destruct (tsp_met _ _ _ (or_introl (conj eq_refl eq_refl)) E) as (M1 & M2). destruct (tsp_met _ _ _ (or_intror (conj eq_refl eq_refl)) E2) as (M3 & M4).
  split; auto. split; auto. split; [apply tdistributedb_ok; vm_compute; reflexivity|]. split; [exact M1|]. split; [exact M2|]. split; [split; vm_compute; lia|]. split; [apply symb_ok; vm_compute; reflexivity|].
  split. { intros a Ha. cbn in Ha. repeat destruct Ha as [<-|Ha]; try destruct Ha; vm_compute; intuition congruence. }
  split; [vm_compute in E; injection E as <-; vm_compute; reflexivity|]. split; [exact M3|]. split; [exact M4|]. split; [cbn; auto|]. split; [reflexivity|]. split; [reflexivity|]. split; [discriminate|].
  vm_compute in E2; injection E2 as <-; vm_compute; reflexivity.
Qed.
