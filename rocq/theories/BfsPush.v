(** bfs_push visits the edges reachable from the seeds in order of distance. *)
From Verif Require Import Base GraphModel TagModel QueueModel BfsProofs.

Section Push.
Variables (g : graph) (ne nv vfuel : nat) (pins il : nat -> list nat).
Let ge (e : nat) := getEdge (ntypes g) e 0.
(** what the graph answers *)
Hypothesis Hpins : forall e, e < ne -> edge_pins g (ge e) vfuel = Some (map S (pins e)).
Hypothesis Hlocal : forall v, v < nv -> owner g (S v) = Some (self g).
Hypothesis Hghost : forall e v, e < ne -> In v (pins e) -> nv <= v -> exists o, owner g (S v) = Some o /\ o <> self g.
Hypothesis Hedges : forall v, v < nv -> vertex_edges g (S v) 0 vfuel = Some (map ge (il v)).
Hypothesis Hlid : forall e, e < ne -> elid g (ge e) = Some e.
Hypothesis Hil : forall v b, v < nv -> In b (il v) -> b < ne.
Hypothesis Hnlv : nlv g = nv.

Variables (visit : visitFn) (X : list nat -> inputs -> Prop) (J : inputs -> nat -> nat -> Prop) (O S0 : list nat) (depth : Z).
Hypothesis HC : contract ne nv pins il visit X J (fun e => In e O).
Notation adj := (adj nv pins il).
Notation Core := (Core ne).
Hypothesis Hold : forall a b, adj a b -> ~ In a O -> ~ In b O.
Variable s0 : inputs.

Lemma ge_inj a b : a < ne -> b < ne -> ge a = ge b -> a = b.
Proof. intros A B E. apply Hlid in A. apply Hlid in B. congruence. Qed.

(** the edges of one vertex *)
Lemma dests_ok c L s bs : c < ne -> In c L -> ~ In c O -> (forall b, In b bs -> b < ne /\ ~ In b O /\ adj c b) -> Core L s -> X L s ->
  exists s' N, foldM (push_dest visit g (ge c)) (map ge bs) s = Some s' /\ visited_from ne X J c bs L N s s'.
Proof.
  intros Lc Ic Oc. revert bs. refine (rev_ind _ _ _).
  - intros _ C HX. exists s, []. split; [reflexivity|]. apply vf_nil; auto.
  - intros b bs IH Hb C HX. destruct IH as (s1 & N & E & V); auto; [intros x Hx; apply Hb, in_app_iff; auto|].
    rewrite map_app, foldM_app, E. cbn [obind map foldM]. destruct (Hb b) as (Lb & Ob & Ab); [apply in_app_iff; right; left; auto|]. unfold push_dest.
    destruct (Nat.eqb_spec (ge b) (ge c)) as [Eb|Nb].
    + apply ge_inj in Eb; auto. subst b. cbn [obind]. exists s1, N. split; [reflexivity|]. destruct V as [v1 v2 v3 v4 v5 v6]. split; auto.
      * intros b Hb'. destruct (v3 b Hb') as (P & Q). split; auto. apply in_app_iff; auto.
      * intros b Hb'. apply in_app_iff in Hb' as [Hb'|[<-|[]]]; auto. split; auto. apply in_app_iff; auto.
    + rewrite (Hlid c), (Hlid b) by auto. cbn [obind]. destruct (vf_step ne nv pins il visit X J (fun e => In e O) HC c bs L N s s1 b V) as (s2 & f & N2 & E2 & V2 & _); auto.
      rewrite E2. cbn [obind]. exists s2, N2. auto.
Qed.

(** the state while the i-th seed is processed; D are its pins that have been processed *)
Record PI (i : nat) (D R : list nat) (s : inputs) (tag : arr Z) : Prop := {
  pi_core : Core (O ++ R) s; pi_X : X (O ++ R) s; pi_pre : exists N, R = S0 ++ N;
  pi_seed : forall e, In e S0 -> vz s e = depth;
  pi_walk : forall e, In e R -> exists d, vz s e = (depth + Z.of_nat d)%Z /\ walk adj S0 d e;
  pi_old : forall e, ~ In e R -> vz s e = vz s0 e;
  pi_mono : forall j k a b, j <= k -> nth_error R j = Some a -> nth_error R k = Some b -> (vz s a <= vz s b)%Z;
  pi_front : forall c e, nth_error R i = Some c -> In e R -> (vz s e <= vz s c + 1)%Z;
  pi_tag : length tag = nv /\ forall v, v < nv -> exists x, aget tag v = Some x;
  pi_done : forall v, v < nv -> aget tag v <> Some 0%Z -> exists j c, j <= i /\ nth_error R j = Some c /\ In v (pins c) /\ (forall a, In a R -> In v (pins a) -> (vz s c <= vz s a)%Z) /\
     forall b, In b (il v) -> In b R /\ (vz s b <= vz s c + 1)%Z /\ (b = c \/ J s c b);
  pi_prev : forall j a v, j < i -> nth_error R j = Some a -> In v (pins a) -> v < nv -> aget tag v <> Some 0%Z;
  pi_cur : forall v, In v D -> v < nv -> aget tag v <> Some 0%Z }.

Lemma pi_new i D R s tag : PI i D R s tag -> forall e, In e R -> e < ne /\ ~ In e O.
Proof.
  intros H e He. destruct (pi_core _ _ _ _ _ H) as ((_ & _ & _ & ND & B) & _). split; [apply B, in_app_iff; auto|]. intros I. clear - ND I He.
  induction O as [|x l IH]; [destruct I|]. inversion ND; subst. destruct I as [->|I]; auto. apply H1, in_app_iff. auto.
Qed.

Lemma bridge_ok i D R s tag c v : PI i D R s tag -> nth_error R i = Some c -> In v (pins c) ->
  exists N s' tag', push_bridge visit g vfuel (ge c) (s, tag) (S v) = Some (s', tag') /\ PI i (D ++ [v]) (R ++ N) s' tag'.
Proof.
  intros H Hi Hv. assert (Hc : In c R) by (eapply nth_error_In; eauto). destruct (pi_new _ _ _ _ _ H c Hc) as (Lc & Oc). unfold push_bridge.
  destruct (Nat.lt_ge_cases v nv) as [Lv|Gv].
  2:{ destruct (Hghost c v Lc Hv Gv) as (o & Eo & No). rewrite Eo. cbn [obind]. destruct (Z.eqb_spec o (self g)); [contradiction|]. cbn [negb]. exists [], s, tag. rewrite app_nil_r. split; auto.
      destruct H. split; auto. intros w Hw Lw. apply in_app_iff in Hw as [Hw|[<-|[]]]; auto. lia. }
  rewrite (Hlocal v Lv). cbn [obind]. rewrite Z.eqb_refl. cbn [negb]. destruct (pi_tag _ _ _ _ _ H) as (Lt & Gt). destruct (Gt v Lv) as (x & Ex).
  unfold get_vtag. cbn [vlid obind]. rewrite Hnlv. destruct (Nat.leb_spec nv v); [lia|]. rewrite Ex. cbn [obind]. destruct (Z.eqb_spec x 0) as [->|Nx]; cbn [negb].
  2:{ exists [], s, tag. rewrite app_nil_r. split; auto. destruct H. split; auto. intros w Hw Lw. apply in_app_iff in Hw as [Hw|[<-|[]]]; auto. congruence. }
  rewrite (Hedges v Lv). cbn [obind].
  assert (AD : forall b, In b (il v) -> adj c b) by (intros b Hb; exists v; auto).
  destruct (dests_ok c (O ++ R) s (il v)) as (s' & N & E & V); auto.
  { apply in_app_iff; auto. } { intros b Hb. split; [eauto|]. split; eauto. } { apply (pi_core _ _ _ _ _ H). } { apply (pi_X _ _ _ _ _ H). }
  rewrite E. cbn [obind]. unfold set_vtag. cbn [vlid obind]. rewrite aset_some by lia. cbn [obind]. exists N, s', (upd tag v (Some 1%Z)). split; auto.
  assert (SUB : forall e, In e (R ++ N) -> In e R \/ In e N) by (intros e He; apply in_app_iff; auto).
  destruct V as [v1 v2 v3 v4 v5 v6]. rewrite <- app_assoc in v1, v2.
  assert (DJ : forall e, In e R -> ~ In e N). { intros e He I. destruct v1 as ((_ & _ & _ & ND & _) & _). clear - ND He I. rewrite app_assoc in ND. assert (K : In e (O ++ R)) by (apply in_app_iff; auto). revert K ND. generalize (O ++ R). intros l. induction l as [|y l IH]; intros K ND; [destruct K|]. inversion ND; subst. destruct K as [->|K]; auto. apply H1, in_app_iff. auto. }
  assert (VR : forall e, In e R -> vz s' e = vz s e) by (intros e He; apply v4; auto).
  assert (FR : forall e, In e R -> (vz s e <= vz s c + 1)%Z) by (intros e He; eapply (pi_front _ _ _ _ _ H); eauto).
  split; auto.
  - destruct (pi_pre _ _ _ _ _ H) as (N0 & ->). exists (N0 ++ N). now rewrite app_assoc.
  - intros e He. rewrite VR; [apply (pi_seed _ _ _ _ _ H); auto|]. destruct (pi_pre _ _ _ _ _ H) as (N0 & ->). apply in_app_iff; auto.
  - intros e He. destruct (SUB e He) as [I|I]; [rewrite VR by auto; apply (pi_walk _ _ _ _ _ H); auto|]. destruct (v3 e I) as (A & B). destruct (pi_walk _ _ _ _ _ H c Hc) as (d & Ed & Hw). exists (S d). split; [lia|]. econstructor; eauto.
  - intros e He. rewrite in_app_iff in He. rewrite v4 by tauto. apply (pi_old _ _ _ _ _ H). tauto.
  - intros j k a b Hjk Ha Hb. destruct (Nat.lt_ge_cases k (length R)) as [Lk|Gk].
    + rewrite nth_error_app1 in Ha by lia. rewrite nth_error_app1 in Hb by lia. rewrite (VR a), (VR b) by (eapply nth_error_In; eauto). eapply (pi_mono _ _ _ _ _ H); [exact Hjk|eauto|eauto].
    + rewrite nth_error_app2 in Hb by lia. apply nth_error_In in Hb. destruct (v3 b Hb) as (_ & Eb). rewrite Eb. apply nth_error_In in Ha. destruct (SUB a Ha) as [I|I]; [rewrite (VR a I); auto|]. destruct (v3 a I) as (_ & ->). lia.
  - intros c' e Hc' He. rewrite nth_error_app1 in Hc' by (apply nth_error_Some; congruence). assert (c' = c) by congruence. subst c'. rewrite (VR c Hc). destruct (SUB e He) as [I|I]; [rewrite (VR e I); auto|]. destruct (v3 e I) as (_ & ->). lia.
  - rewrite upd_length. split; auto. intros w Lw. destruct (Nat.eq_dec w v) as [->|Nw]; [exists 1%Z; now rewrite aget_upd_eq by lia|]. rewrite aget_upd_neq by auto. auto.
  - intros w Lw Hw. destruct (Nat.eq_dec w v) as [->|Nw].
    + exists i, c. split; [lia|]. split; [rewrite nth_error_app1 by (apply nth_error_Some; congruence); auto|]. split; auto. split.
      * intros a Ha Hva. rewrite (VR c Hc). destruct (SUB a Ha) as [I|I]; [|destruct (v3 a I) as (_ & ->); lia]. rewrite (VR a I). apply In_nth_error in I as (k & Hk).
        destruct (Nat.lt_ge_cases k i) as [Lk|Gk]; [exfalso; apply (pi_prev _ _ _ _ _ H k a v Lk Hk Hva Lv); auto|]. eapply (pi_mono _ _ _ _ _ H); [exact Gk|eauto|eauto].
      * intros b Hb. destruct (v5 b Hb) as (A & B).
        assert (IB : In b (R ++ N)). { rewrite <- app_assoc in A. apply in_app_iff in A as [A|A]; auto. exfalso. apply (Hold c b); auto. }
        split; auto. split; auto. rewrite (VR c Hc). destruct (SUB b IB) as [I|I]; [rewrite (VR b I); auto|]. destruct (v3 b I) as (_ & ->). lia.
    + rewrite aget_upd_neq in Hw by auto. destruct (pi_done _ _ _ _ _ H w Lw Hw) as (j & k & Lj & Hk & Hp & Hm & Hb). assert (Ik : In k R) by (eapply nth_error_In; eauto).
      exists j, k. split; auto. split; [rewrite nth_error_app1 by (apply nth_error_Some; congruence); auto|]. split; auto. split.
      * intros a Ha Hwa. rewrite (VR k Ik). destruct (SUB a Ha) as [I|I]; [rewrite (VR a I); auto|]. destruct (v3 a I) as (_ & ->). pose proof (pi_mono _ _ _ _ _ H j i k c Lj Hk Hi). lia.
      * intros b Hb'. destruct (Hb b Hb') as (A & B & C). split; [apply in_app_iff; auto|]. rewrite (VR b A), (VR k Ik). split; auto. destruct C; auto.
  - intros j a w Lj Ha Hw Lw. destruct (Nat.eq_dec w v) as [->|Nw]; [rewrite aget_upd_eq by lia; congruence|]. rewrite aget_upd_neq by auto. rewrite nth_error_app1 in Ha by (assert (i < length R) by (apply nth_error_Some; congruence); lia). eapply (pi_prev _ _ _ _ _ H); eauto.
  - intros w Hw Lw. destruct (Nat.eq_dec w v) as [->|Nw]; [rewrite aget_upd_eq by lia; congruence|]. rewrite aget_upd_neq by auto. apply in_app_iff in Hw as [Hw|[->|[]]]; [|congruence]. apply (pi_cur _ _ _ _ _ H); auto.
Qed.

Lemma bridges_ok i R s tag c : PI i [] R s tag -> nth_error R i = Some c ->
  exists N s' tag', foldM (push_bridge visit g vfuel (ge c)) (map S (pins c)) (s, tag) = Some (s', tag') /\ PI i (pins c) (R ++ N) s' tag'.
Proof.
  intros H Hi. assert (G : forall r D R1 s1 tag1, pins c = D ++ r -> PI i D R1 s1 tag1 -> nth_error R1 i = Some c ->
     exists N s' tag', foldM (push_bridge visit g vfuel (ge c)) (map S r) (s1, tag1) = Some (s', tag') /\ PI i (pins c) (R1 ++ N) s' tag').
  { induction r as [|v r IH]; intros D R1 s1 tag1 ED H1 Hi1; cbn [map foldM].
    - exists [], s1, tag1. rewrite app_nil_r in *. rewrite ED. auto.
    - destruct (bridge_ok i D R1 s1 tag1 c v H1 Hi1) as (N & s2 & tag2 & E & H2); [rewrite ED; apply in_app_iff; right; left; auto|]. rewrite E. cbn [obind].
      destruct (IH (D ++ [v]) (R1 ++ N) s2 tag2) as (N2 & s3 & tag3 & E3 & H3); auto; [rewrite <- app_assoc; auto|rewrite nth_error_app1 by (apply nth_error_Some; congruence); auto|].
      exists (N ++ N2), s3, tag3. rewrite app_assoc. auto. }
  apply (G (pins c) [] R s tag); auto.
Qed.
Lemma pi_next i R s tag c : PI i (pins c) R s tag -> nth_error R i = Some c -> PI (i + 1) [] R s tag.
Proof.
  intros H Hi. destruct H as [h1 h2 h3 h4 h5 h6 h7 h8 h9 h10 h11 h12]. split; auto.
  - intros c' e Hc' He. pose proof (h8 c e Hi He). pose proof (h7 i (i + 1) c c' ltac:(lia) Hi Hc'). lia.
  - intros v Lv Hv. destruct (h10 v Lv Hv) as (j & k & A & B). exists j, k. split; [lia|auto].
  - intros j a v Lj Ha Hv Lv. destruct (Nat.eq_dec j i) as [->|N]; [|eapply h11; eauto; lia]. assert (a = c) by congruence. subst a. auto.
Qed.
Lemma push_loop_ok : forall fuel i R s tag, PI i [] R s tag -> i <= length R -> ne <= length O + i + fuel ->
  exists R' s', push_loop visit g 0 vfuel fuel (length O + i) s tag = Some s' /\ exists tag', PI (length R') [] R' s' tag'.
Proof.
  induction fuel as [|fuel IH]; intros i R s tag H Li Lf; cbn [push_loop]; pose proof (pi_core _ _ _ _ _ H) as ((_ & EN & GS & _) & _); rewrite EN, app_length.
  - destruct (Nat.eqb_spec (length O + i) (length O + length R)); [exists R, s; split; auto; replace (length R) with i by lia; eauto|]. exfalso.
    assert (length (O ++ R) <= ne) by (eapply seeds_le; apply (pi_core _ _ _ _ _ H)). rewrite app_length in *. lia.
  - destruct (Nat.eqb_spec (length O + i) (length O + length R)); [exists R, s; split; auto; replace (length R) with i by lia; eauto|]. assert (Lr : i < length R) by lia.
    destruct (nth_error R i) as [c|] eqn:Hi; [|apply nth_error_None in Hi; lia].
    assert (GC : aget (in_seeds s) (length O + i) = Some c). { rewrite GS by (rewrite app_length; lia). rewrite nth_error_app2 by lia. replace (length O + i - length O) with i by lia. auto. }
    rewrite GC. cbn [obind]. fold (ge c). rewrite Hpins by (eapply (pi_new _ _ _ _ _ H), nth_error_In; eauto). cbn [obind]. destruct (bridges_ok i R s tag c H Hi) as (N & s' & tag' & E & H').
    rewrite E. cbn [obind]. rewrite <- Nat.add_assoc. apply (IH (i + 1) (R ++ N)); [eapply pi_next; eauto; rewrite nth_error_app1 by auto; auto|rewrite app_length; lia|lia].
Qed.

Hypothesis HXv : forall L s vs, X L s -> X L (mkIn (in_seeds s) (in_n s) vs (in_osets s) (in_sets s) (in_par s) (in_size s) (in_lab s)).
Lemma clear_tag vs n : vs = map S (seq 0 n) -> forall a, length a = n ->
  exists a', foldM (fun a v => set_vtag a v 0%Z) vs a = Some a' /\ length a' = n /\ forall v, v < n -> aget a' v = Some 0%Z.
Proof.
  intros ->. assert (G : forall k st a, st + k = length a -> (forall v, v < st -> aget a v = Some 0%Z) ->
     exists a', foldM (fun a v => set_vtag a v 0%Z) (map S (seq st k)) a = Some a' /\ length a' = length a /\ forall v, v < length a -> aget a' v = Some 0%Z).
  { induction k as [|k IH]; intros st a L Z; cbn [seq map foldM]; [exists a; repeat split; auto; intros v Lv; apply Z; lia|]. unfold set_vtag at 1. cbn [vlid obind]. rewrite aset_some by lia. cbn [obind].
    destruct (IH (S st) (upd a st (Some 0%Z))) as (a' & E & L' & Z'); [rewrite upd_length; lia| |].
    - intros v Lv. destruct (Nat.eq_dec v st) as [->|N]; [now rewrite aget_upd_eq by lia|]. rewrite aget_upd_neq by auto. apply Z. lia.
    - rewrite upd_length in *. exists a'. auto. }
  intros a La. destruct (G n 0 a) as (a' & E & L & Z); [lia|intros v; lia|]. exists a'. rewrite La in *. auto.
Qed.
Hypothesis Hverts : all_verts g vfuel = Some (map S (seq 0 nv)).
Theorem bfs_push_ok s : ne <= vfuel -> Seeds ne (O ++ S0) s -> Vis ne O s -> (0 <= depth)%Z -> X (O ++ S0) s -> S0 <> [] -> (forall e, vz s0 e = vz s e) ->
  exists R s' d, bfs_push g 0 (length O) depth visit vfuel s = Some (s', d) /\ Result ne nv pins il X J depth O S0 R s s' /\
    (forall e, In e R -> (vz s' e <= d)%Z).
Proof.
  intros Lf HS HV Hd HX NE E0. unfold bfs_push, create_tag. cbn [obind]. rewrite Hverts. cbn [obind].
  destruct (clear_tag _ nv eq_refl (anew (nlv g))) as (tag & Et & Lt & Zt); [rewrite anew_length; auto|]. rewrite Et. cbn [obind].
  destruct (start_ok ne O S0 depth s HS HV Hd) as (vs & Es & C & Z0 & Zr). rewrite Es. cbn [obind]. cbv zeta in C, Z0, Zr. set (s1 := mkIn (in_seeds s) (in_n s) vs (in_osets s) (in_sets s) (in_par s) (in_size s) (in_lab s)) in *.
  assert (P0 : PI 0 [] S0 s1 tag).
  { assert (NT : forall v, v < nv -> aget tag v <> Some 0%Z -> False) by (intros v Lv H; apply H; auto). split; auto.
    - apply HXv, HX. - exists []. now rewrite app_nil_r. - intros e He. exists 0. split; [rewrite Z0 by auto; lia|constructor; auto]. - intros e He. rewrite Zr, E0; auto.
    - intros j k a b _ Ha Hb. rewrite (Z0 a), (Z0 b) by (eapply nth_error_In; eauto). lia.
    - intros c e Hc He. rewrite (Z0 c), (Z0 e) by (auto; eapply nth_error_In; eauto). lia.
    - split; auto. intros v Lv. exists 0%Z. auto. - intros v Lv H. exfalso. eauto. - intros j a v Lj. lia. }
  destruct (push_loop_ok vfuel 0 S0 s1 tag P0) as (R & s2 & E2 & tag' & P2); [lia|lia|]. rewrite Nat.add_0_r in E2. rewrite E2. cbn [obind].
  pose proof (pi_core _ _ _ _ _ P2) as ((_ & EN & GS & _) & _). destruct (pi_pre _ _ _ _ _ P2) as (N & ER).
  assert (NR : R <> []) by (rewrite ER; destruct S0; [congruence|discriminate]). destruct (exists_last NR) as (R1 & x & EX).
  rewrite EN. destruct (Nat.eqb_spec (length (O ++ R)) 0) as [Z|_]; [rewrite app_length in Z; destruct R; [congruence|cbn in Z; lia]|].
  assert (GX : aget (in_seeds s2) (length (O ++ R) - 1) = Some x). { rewrite GS by (rewrite EX, !app_length; cbn; lia). rewrite EX, app_assoc. rewrite nth_error_app2 by (rewrite (app_length (O ++ R1)); cbn; lia). rewrite (app_length (O ++ R1)). cbn [length]. replace (length (O ++ R1) + 1 - 1 - length (O ++ R1)) with 0 by lia. reflexivity. }
  rewrite GX. cbn [obind]. assert (Ix : In x R) by (rewrite EX; apply in_app_iff; right; left; auto).
  rewrite (core_get ne (O ++ R) s2 x); [|apply (pi_core _ _ _ _ _ P2)|apply (pi_new _ _ _ _ _ P2 x Ix)]. cbn [obind]. exists R, s2, (vz s2 x). split; auto. split.
  - destruct P2 as [h1 h2 h3 h4 h5 h6 h7 h8 h9 h10 h11 h12]. apply result_of; auto; [intros e He; rewrite <- E0; auto|]. intros a v Ha Lv Hv. apply In_nth_error in Ha as Hn. destruct Hn as (j & Hj).
    destruct (h10 v Lv) as (k & c & _ & Hk & Hp & Hm & Hb); [eapply h11; eauto; apply nth_error_Some; congruence|]. exists c. split; [eapply nth_error_In; eauto|]. split; auto.
  - intros e He. apply In_nth_error in He as (j & Hj). eapply (pi_mono _ _ _ _ _ P2 j (length R1)); eauto.
    + assert (j < length R) by (apply nth_error_Some; congruence). rewrite EX, app_length in *. cbn in *. lia.
    + rewrite EX, nth_error_app2, Nat.sub_diag by lia. reflexivity.
Qed.
End Push.
