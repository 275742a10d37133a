(** bfs_pull visits the edges reachable from the seeds level by level. *)
From Verif Require Import Base GraphModel TagModel QueueModel BfsProofs.

Lemma foldM_map_get {A B} (arr0 : arr A) (F : B -> A -> option B) : forall js bs s, mapM (aget arr0) js = Some bs ->
  foldM (fun s j => e <- aget arr0 j ;; F s e) js s = foldM F bs s.
Proof.
  induction js as [|j js IH]; intros bs s H; cbn [mapM] in H; [inversion H; reflexivity|]. destruct (aget arr0 j) as [e|] eqn:E; [|discriminate]. cbn [obind] in H. destruct (mapM (aget arr0) js) as [r|]; [|discriminate]. cbn [obind] in H. inversion H; subst.
  cbn [foldM]. rewrite E. cbn [obind]. destruct (F s e); cbn [obind]; auto.
Qed.

Section Pull.
Variables (ed : etd) (ne nv : nat) (pins il : nat -> list nat).
Hypothesis Hrow : forall v, v < nv -> exists a b, aget (e_deg ed) v = Some a /\ aget (e_deg ed) (v + 1) = Some b /\ mapM (aget (e_list ed)) (seq a (b - a)) = Some (il v).
Hypothesis Hil : forall v b, v < nv -> In b (il v) -> b < ne.
Hypothesis Hsym : forall v a, v < nv -> a < ne -> In v (pins a) <-> In a (il v).

Variables (visit : visitFn) (X : list nat -> inputs -> Prop) (J : inputs -> nat -> nat -> Prop) (O S0 : list nat) (depth : Z).
Hypothesis HC : contract ne nv pins il visit X J (fun e => In e O).
Notation adj := (adj nv pins il).
Notation Core := (Core ne).
Hypothesis Hold : forall a b, adj a b -> ~ In a O -> ~ In b O.
Variable s0 : inputs.
Hypothesis Hlow : forall e, In e O -> (vz s0 e < depth)%Z.

Lemma source_ok L s v : Core L s -> v < nv ->
  exists src, pull_source ed s v = Some src /\
    match src with None => forall b, In b (il v) -> ~ In b L
    | Some c => In c (il v) /\ In c L /\ forall b, In b (il v) -> In b L -> (vz s c <= vz s b)%Z end.
Proof.
  intros C Lv. destruct (Hrow v Lv) as (a & b & Ea & Eb & Em). unfold pull_source. rewrite Ea, Eb. cbn [obind].
  rewrite (foldM_map_get (e_list ed) (fun src e => x <- aget (in_vis s) e ;; if Z.eqb x (-1) then Some src else match src with None => Some (Some e) | Some c => y <- aget (in_vis s) c ;; Some (if (x <? y)%Z then Some e else src) end) _ _ None Em).
  assert (HB : forall x, In x (il v) -> x < ne) by (intros; eapply Hil; eauto). clear Em Hrow. revert HB. generalize (il v). refine (rev_ind _ _ _).
  - intros _. exists None. split; [reflexivity|]. intros x [].
  - intros x l IH HB. destruct IH as (src & E & S); [intros y Hy; apply HB, in_app_iff; auto|]. rewrite foldM_app, E. cbn [obind foldM]. assert (Lx : x < ne) by (apply HB, in_app_iff; right; left; auto).
    rewrite (core_get ne L s x C Lx). cbn [obind]. pose proof (core_in ne L s x C) as IX. destruct (Z.eqb_spec (vz s x) (-1)) as [Ex|Nx].
    + cbn [obind]. exists src. split; [reflexivity|]. assert (NX : ~ In x L) by (intros I; apply IX in I; contradiction). destruct src as [c|].
      * destruct S as (S1 & S2 & S3). split; [apply in_app_iff; auto|]. split; auto. intros y Hy Iy. apply in_app_iff in Hy as [Hy|[<-|[]]]; auto. contradiction.
      * intros y Hy. apply in_app_iff in Hy as [Hy|[<-|[]]]; auto.
    + apply IX in Nx. destruct src as [c|].
      * destruct S as (S1 & S2 & S3). rewrite (core_get ne L s c C) by (apply HB, in_app_iff; auto). cbn [obind]. destruct (Z.ltb_spec (vz s x) (vz s c)).
        -- exists (Some x). split; [reflexivity|]. split; [apply in_app_iff; right; left; auto|]. split; auto. intros y Hy Iy. apply in_app_iff in Hy as [Hy|[<-|[]]]; [|lia]. pose proof (S3 y Hy Iy). lia.
        -- exists (Some c). split; [reflexivity|]. split; [apply in_app_iff; auto|]. split; auto. intros y Hy Iy. apply in_app_iff in Hy as [Hy|[<-|[]]]; auto.
      * cbn [obind]. exists (Some x). split; [reflexivity|]. split; [apply in_app_iff; right; left; auto|]. split; auto. intros y Hy Iy. apply in_app_iff in Hy as [Hy|[<-|[]]]; [|lia]. exfalso. eapply S; eauto.
Qed.

Lemma visits_ok c L s upd bs : In c L -> ~ In c O -> (forall b, In b bs -> b < ne /\ ~ In b O /\ adj c b) -> Core L s -> X L s ->
  exists s' N, foldM (fun '(s, upd) e => '(s', b) <- visit s c e ;; Some (s', if b : bool then upd + 1 else upd)) bs (s, upd) = Some (s', upd + length N) /\ visited_from ne X J c bs L N s s'.
Proof.
  intros Ic Oc. revert bs. refine (rev_ind _ _ _).
  - intros _ C HX. exists s, []. split; [cbn; now rewrite Nat.add_0_r|]. apply vf_nil; auto.
  - intros b bs IH Hb C HX. destruct IH as (s1 & N & E & V); auto; [intros x Hx; apply Hb, in_app_iff; auto|].
    rewrite foldM_app, E. cbn [obind foldM]. destruct (Hb b) as (Lb & Ob & Ab); [apply in_app_iff; right; left; auto|].
    destruct (vf_step ne nv pins il visit X J (fun e => In e O) HC c bs L N s s1 b V) as (s2 & f & N2 & E2 & V2 & LN); auto.
    rewrite E2. cbn [obind]. exists s2, N2. rewrite LN. split; auto. destruct f; do 2 f_equal; lia.
Qed.

(** the state in the middle of a level: [r] are the vertices still to be handled, [kept] those put off *)
Record LI (lev : Z) (r kept R N : list nat) (s : inputs) : Prop := {
  li_core : Core (O ++ R ++ N) s; li_X : X (O ++ R ++ N) s; li_pre : exists M, R = S0 ++ M;
  li_seed : forall e, In e S0 -> vz s e = depth;
  li_walk : forall e, In e (R ++ N) -> exists d, vz s e = (depth + Z.of_nat d)%Z /\ walk adj S0 d e;
  li_old : forall e, ~ In e (R ++ N) -> vz s e = vz s0 e;
  li_mono : forall j k a b, j <= k -> nth_error R j = Some a -> nth_error R k = Some b -> (vz s a <= vz s b)%Z;
  li_le : forall e, In e R -> (vz s e <= lev)%Z;
  li_new : forall e, In e N -> vz s e = (lev + 1)%Z;
  li_lev : (depth <= lev)%Z;
  li_bound : forall v, In v (r ++ kept) -> v < nv;
  li_todo : forall v a, In v r -> In a R -> In v (pins a) -> (lev <= vz s a)%Z;
  li_kept : forall v a, In v kept -> In a (R ++ N) -> In v (pins a) -> (lev + 1 <= vz s a)%Z;
  li_done : forall v, v < nv -> ~ In v r -> ~ In v kept -> exists c, In c (R ++ N) /\ In v (pins c) /\ (forall a, In a (R ++ N) -> In v (pins a) -> (vz s c <= vz s a)%Z) /\
     forall b, In b (il v) -> In b (R ++ N) /\ (vz s b <= vz s c + 1)%Z /\ (b = c \/ J s c b) }.
Lemma li_fresh lev r kept R N s : LI lev r kept R N s -> forall e, In e (R ++ N) -> e < ne /\ ~ In e O.
Proof.
  intros H e He. destruct (li_core _ _ _ _ _ _ H) as ((_ & _ & _ & ND & B) & _). split; [apply B, in_app_iff; auto|]. intros I. clear - ND I He.
  induction O as [|x l IH]; [destruct I|]. inversion ND; subst. destruct I as [->|I]; auto. apply H1, in_app_iff. auto.
Qed.
Lemma vertex_ok cap lev r kept R N s v upd : LI lev (v :: r) kept R N s -> length kept < cap -> upd = length N ->
  exists s' kept' N', pull_vertex visit ed cap lev (s, kept, upd) v = Some (s', kept', length N') /\ LI lev r kept' R N' s' /\ length kept' <= length kept + 1.
Proof.
  intros H Lk EU. assert (Lv : v < nv) by (apply (li_bound _ _ _ _ _ _ H); left; auto). unfold pull_vertex.
  destruct (source_ok (O ++ R ++ N) s v (li_core _ _ _ _ _ _ H) Lv) as (src & ES & SP). rewrite ES. cbn [obind].
  assert (SUB : forall e, In e (R ++ N) -> In e R \/ In e N) by (intros e He; apply in_app_iff; auto).
  (* is there an edge of v at this level *)
  assert (CASE : (exists c, src = Some c /\ aget (in_vis s) c = Some lev /\ In c (il v) /\ In c R /\ vz s c = lev) \/
                 ((match src with None => Some None | Some c => x <- aget (in_vis s) c ;; Some (if Z.eqb x lev then Some c else None) end) = Some None /\ forall a, In a (R ++ N) -> In v (pins a) -> (lev + 1 <= vz s a)%Z)).
  { destruct src as [c|].
    - destruct SP as (A & B & C). assert (Lc : c < ne) by eauto. rewrite (core_get ne _ s c (li_core _ _ _ _ _ _ H) Lc). cbn [obind]. destruct (Z.eqb_spec (vz s c) lev) as [E|NEQ].
      + left. exists c. split; auto. split; [rewrite (core_get ne _ s c (li_core _ _ _ _ _ _ H) Lc), E; auto|]. split; auto. split; auto. apply in_app_iff in B as [B|B].
        * exfalso. assert (NR : ~ In c (R ++ N)) by (intros I; apply (li_fresh _ _ _ _ _ _ H) in I; tauto). pose proof (li_old _ _ _ _ _ _ H c NR). pose proof (Hlow c B). pose proof (li_lev _ _ _ _ _ _ H). lia.
        * apply in_app_iff in B as [B|B]; auto. apply (li_new _ _ _ _ _ _ H) in B. lia.
      + right. split; [reflexivity|]. intros a Ha Hv. assert (La : a < ne) by (apply (li_fresh _ _ _ _ _ _ H a Ha)). destruct (SUB a Ha) as [I|I]; [|rewrite (li_new _ _ _ _ _ _ H a I); lia].
        pose proof (li_todo _ _ _ _ _ _ H v a (or_introl eq_refl) I Hv). apply (Hsym v a Lv La) in Hv as Hv'. pose proof (C a Hv' ltac:(apply in_app_iff; auto)). pose proof (li_le _ _ _ _ _ _ H a I).
        exfalso. apply in_app_iff in B as [B|B].
        * (* the smallest is an old edge although a is not *) assert (AD : adj a c) by (exists v; auto). apply (Hold a c AD); auto. apply (li_fresh _ _ _ _ _ _ H a Ha).
        * apply SUB in B as [B|B]; [|apply (li_new _ _ _ _ _ _ H) in B; lia]. apply (Hsym v c Lv Lc) in A as A'. pose proof (li_todo _ _ _ _ _ _ H v c (or_introl eq_refl) B A'). lia.
    - right. split; [reflexivity|]. intros a Ha Hv. exfalso. assert (La : a < ne) by (apply (li_fresh _ _ _ _ _ _ H a Ha)). apply (Hsym v a Lv La) in Hv. eapply SP; eauto. apply in_app_iff; auto. }
  destruct CASE as [(c & -> & Ec & Ic & Rc & Vc)|(-> & LATE)]; cbn [obind].
  - rewrite Ec. cbn [obind]. rewrite Z.eqb_refl. destruct (Hrow v Lv) as (a & b & Ea & Eb & Em). rewrite Ea, Eb. cbn [obind].
    assert (Hc : In c (R ++ N)) by (apply in_app_iff; auto). destruct (li_fresh _ _ _ _ _ _ H c Hc) as (Lc & Oc). assert (Pv : In v (pins c)) by (apply Hsym; auto).
    assert (AD : forall x, In x (il v) -> adj c x) by (intros x Hx; exists v; auto).
    destruct (visits_ok c (O ++ R ++ N) s upd (il v)) as (s' & N2 & E & V); auto.
    { apply in_app_iff; auto. } { intros x Hx. split; [eauto|]. split; eauto. } { apply (li_core _ _ _ _ _ _ H). } { apply (li_X _ _ _ _ _ _ H). }
    match goal with |- exists s' kept' N', obind ?f _ = _ /\ _ => assert (EF : f = Some (s', upd + length N2)) end.
    { rewrite <- E, <- (foldM_map_get (e_list ed) _ _ _ _ Em). apply foldM_ext. intros [s1 u1] j. reflexivity. }
    rewrite EF. cbn [obind]. exists s', kept, (N ++ N2). split; [rewrite app_length, EU; auto|]. split; [|lia]. clear E EF Em Ea Eb.
    destruct V as [v1 v2 v3 v4 v5 v6]. rewrite <- !app_assoc in v1, v2.
    assert (DJ : forall e, In e (R ++ N) -> ~ In e N2). { intros e He I. destruct v1 as ((_ & _ & _ & ND & _) & _). clear - ND He I. rewrite (app_assoc R), app_assoc in ND. assert (K : In e (O ++ (R ++ N))) by (apply in_app_iff; auto). revert K ND. generalize (O ++ R ++ N). intros l. induction l as [|y l IH]; intros K ND; [destruct K|]. inversion ND; subst. destruct K as [->|K]; auto. apply H1, in_app_iff. auto. }
    assert (VR : forall e, In e (R ++ N) -> vz s' e = vz s e) by (intros e He; apply v4; auto).
    assert (VR1 : forall e, In e R -> vz s' e = vz s e) by (intros e He; apply VR, in_app_iff; auto).
    assert (VN : forall e, In e N2 -> vz s' e = (lev + 1)%Z) by (intros e He; destruct (v3 e He) as (_ & ->); lia).
    assert (SUB2 : forall e, In e (R ++ N ++ N2) -> In e (R ++ N) \/ In e N2) by (intros e He; rewrite app_assoc in He; apply in_app_iff; auto).
    split; auto.
    + apply (li_pre _ _ _ _ _ _ H).
    + intros e He. rewrite VR1; [apply (li_seed _ _ _ _ _ _ H); auto|]. destruct (li_pre _ _ _ _ _ _ H) as (M & ->). apply in_app_iff; auto.
    + intros e He. destruct (SUB2 e He) as [I|I]; [rewrite VR by auto; apply (li_walk _ _ _ _ _ _ H); auto|]. destruct (v3 e I) as (A & B). destruct (li_walk _ _ _ _ _ _ H c Hc) as (d & Ed & Hw). exists (S d). split; [lia|]. econstructor; eauto.
    + intros e He. rewrite app_assoc, in_app_iff in He. rewrite v4 by tauto. apply (li_old _ _ _ _ _ _ H). tauto.
    + intros j k x y Hjk Hx Hy. rewrite (VR1 x), (VR1 y) by (eapply nth_error_In; eauto). eapply (li_mono _ _ _ _ _ _ H); [exact Hjk|eauto|eauto].
    + intros e He. rewrite VR1 by auto. apply (li_le _ _ _ _ _ _ H); auto.
    + intros e He. apply in_app_iff in He as [He|He]; auto. rewrite VR by (apply in_app_iff; auto). apply (li_new _ _ _ _ _ _ H); auto.
    + apply (li_lev _ _ _ _ _ _ H).
    + intros w Hw. apply (li_bound _ _ _ _ _ _ H). right. auto.
    + intros w x Hw Hx Hwx. rewrite VR1 by auto. apply (li_todo _ _ _ _ _ _ H w); auto. right; auto.
    + intros w x Hw Hx Hwx. destruct (SUB2 x Hx) as [I|I]; [|rewrite VN by auto; lia]. rewrite VR by auto. apply (li_kept _ _ _ _ _ _ H w); auto.
    + intros w Lw Nr Nk. destruct (Nat.eq_dec w v) as [->|Nw].
      * exists c. split; [rewrite app_assoc; apply in_app_iff; auto|]. split; auto. rewrite (VR c Hc). split.
        -- intros x Hx Hv. destruct (SUB2 x Hx) as [I|I]; [|rewrite VN by auto; lia]. rewrite VR by auto. destruct (SUB x I) as [I2|I2]; [|rewrite (li_new _ _ _ _ _ _ H x I2); lia]. rewrite Vc. apply (li_todo _ _ _ _ _ _ H v); auto. left; auto.
        -- intros x Hx. destruct (v5 x Hx) as (A & B). assert (IB : In x (R ++ N ++ N2)). { rewrite <- !app_assoc in A. apply in_app_iff in A as [A|A]; auto. exfalso. apply (Hold c x); auto. }
           split; auto. split; auto. destruct (SUB2 x IB) as [I|I]; [|rewrite VN by auto; lia]. rewrite VR by auto. destruct (SUB x I) as [I2|I2]; [pose proof (li_le _ _ _ _ _ _ H x I2); lia|rewrite (li_new _ _ _ _ _ _ H x I2); lia].
      * destruct (li_done _ _ _ _ _ _ H w Lw) as (k & Ik & Hp & Hm & Hb); auto; [intros [->|I]; auto|]. exists k. split; [rewrite app_assoc; apply in_app_iff; auto|]. split; auto. rewrite (VR k Ik). split.
        -- intros x Hx Hw. destruct (SUB2 x Hx) as [I|I]; [rewrite VR by auto; auto|]. rewrite VN by auto. destruct (SUB k Ik) as [I2|I2]; [pose proof (li_le _ _ _ _ _ _ H k I2); lia|rewrite (li_new _ _ _ _ _ _ H k I2); lia].
        -- intros x Hx. destruct (Hb x Hx) as (A & B & C). split; [rewrite app_assoc; apply in_app_iff; auto|]. rewrite (VR x A). split; auto. destruct C; auto.
  - destruct (Nat.ltb_spec (length kept) cap); [|lia]. exists s, (kept ++ [v]), N. rewrite EU. split; auto. split; [|rewrite app_length; cbn; lia].
    destruct H as [h1 h2 h3 h4 h5 h6 h7 h8 h9 h10 h11 h12 h13 h14]. split; auto.
    + intros w Hw. apply h11. rewrite app_assoc in Hw. apply in_app_iff in Hw as [Hw|[<-|[]]]; [|left; auto]. right; auto.
    + intros w x Hw Hx Hwx. apply (h12 w x); auto. right; auto.
    + intros w x Hw Hx Hwx. apply in_app_iff in Hw as [Hw|[<-|[]]]; [apply (h13 w x Hw Hx Hwx)|apply (LATE x Hx Hwx)].
    + intros w Lw Nr Nk. apply h14; auto; [intros [->|I]; auto; apply Nk, in_app_iff; right; left; auto|]. intros I. apply Nk, in_app_iff; auto.
Qed.
Lemma level_ok cap lev R s cv : LI lev cv [] R [] s -> length cv <= cap ->
  exists s' kept N, foldM (pull_vertex visit ed cap lev) cv (s, [], 0) = Some (s', kept, length N) /\ LI lev [] kept R N s' /\ length kept <= length cv.
Proof.
  intros H Lc. assert (G : forall r kept N s1, LI lev r kept R N s1 -> length kept + length r <= cap ->
     exists s' kept' N', foldM (pull_vertex visit ed cap lev) r (s1, kept, length N) = Some (s', kept', length N') /\ LI lev [] kept' R N' s' /\ length kept' <= length kept + length r).
  { induction r as [|v r IH]; intros kept N s1 H1 L1; cbn [foldM length] in *; [exists s1, kept, N; split; auto; split; auto; lia|].
    destruct (vertex_ok cap lev r kept R N s1 v (length N) H1) as (s2 & k2 & N2 & E & H2 & L2); auto; [lia|]. rewrite E. cbn [obind]. destruct (IH k2 N2 s2 H2) as (s3 & k3 & N3 & E3 & H3 & L3); [lia|].
    exists s3, k3, N3. split; auto. split; auto. lia. }
  destruct (G cv [] [] s H) as (s' & k & N & E & H' & L); [cbn; lia|]. exists s', k, N. auto.
Qed.
Lemma pull_loop_ok cap : forall fuel lev R s cv, LI lev cv [] R [] s -> length cv <= cap -> ne < length O + length R + fuel ->
  exists R' s' d, pull_loop visit ed cap fuel lev s cv = Some (s', d) /\ exists kept, LI (d - 1) [] kept R' [] s'.
Proof.
  induction fuel as [|fuel IH]; intros lev R s cv H Lc Lf.
  - exfalso. assert (length (O ++ R ++ []) <= ne) by (eapply seeds_le; apply (li_core _ _ _ _ _ _ H)). rewrite app_nil_r, app_length in *. lia.
  - cbn [pull_loop]. destruct (level_ok cap lev R s cv H Lc) as (s' & kept & N & E & H' & Lk). rewrite E. cbn [obind]. destruct (Nat.eqb_spec (length N) 0) as [Z|NZ].
    + exists R, s', (lev + 1)%Z. split; auto. exists kept. destruct N; [|discriminate]. replace (lev + 1 - 1)%Z with lev by lia. auto.
    + assert (NL : LI (lev + 1) kept [] (R ++ N) [] s').
      { destruct H' as [h1 h2 h3 h4 h5 h6 h7 h8 h9 h10 h11 h12 h13 h14]. split; rewrite ?app_nil_r; auto.
        - destruct h3 as (M & ->). exists (M ++ N). now rewrite app_assoc.
        - intros j k a b Hjk Ha Hb. destruct (Nat.lt_ge_cases k (length R)) as [L|G].
          + rewrite nth_error_app1 in Ha by lia. rewrite nth_error_app1 in Hb by lia. eapply h7; [exact Hjk|eauto|eauto].
          + rewrite nth_error_app2 in Hb by lia. apply nth_error_In in Hb. rewrite (h9 b Hb). apply nth_error_In in Ha. apply in_app_iff in Ha as [Ha|Ha]; [apply h8 in Ha; lia|rewrite (h9 a Ha); lia].
        - intros e He. apply in_app_iff in He as [He|He]; [apply h8 in He; lia|rewrite (h9 e He); lia].
        - intros e [].
        - lia.
        - intros v a []. }
      apply (IH (lev + 1)%Z (R ++ N) s' kept NL); [lia|]. rewrite app_length. lia.
Qed.

Hypothesis HXv : forall L s vs, X L s -> X L (mkIn (in_seeds s) (in_n s) vs (in_osets s) (in_sets s) (in_par s) (in_size s) (in_lab s)).
Variables (g : graph).
Hypothesis Hnlv : nlv g = nv.
Hypothesis Hty : gtype g 0 = Some ed.
Theorem bfs_pull_ok s fuel : ne <= fuel -> Seeds ne (O ++ S0) s -> Vis ne O s -> (0 <= depth)%Z -> X (O ++ S0) s -> S0 <> [] -> (forall e, vz s0 e = vz s e) ->
  exists R s' d, bfs_pull g 0 (length O) depth visit fuel s = Some (s', d) /\ Result ne nv pins il X J depth O S0 R s s' /\
    (forall e, In e R -> (vz s' e < d)%Z).
Proof.
  intros Lf HS HV Hd HX NE E0. unfold bfs_pull. rewrite Hty. cbn [obind].
  destruct (start_ok ne O S0 depth s HS HV Hd) as (vs & Es & C & Z0 & Zr). rewrite Es. cbn [obind]. cbv zeta in C, Z0, Zr. set (s1 := mkIn (in_seeds s) (in_n s) vs (in_osets s) (in_sets s) (in_par s) (in_size s) (in_lab s)) in *.
  assert (P0 : LI depth (seq 0 nv) [] S0 [] s1).
  { split; rewrite ?app_nil_r; auto.
    - apply HXv, HX. - exists []. now rewrite app_nil_r. - intros e He. exists 0. split; [rewrite Z0 by auto; lia|constructor; auto]. - intros e He. rewrite Zr, E0; auto.
    - intros j k a b _ Ha Hb. rewrite (Z0 a), (Z0 b) by (eapply nth_error_In; eauto). lia.
    - intros e He. rewrite (Z0 e) by auto. lia. - intros e []. - lia. - intros v Hv. apply in_seq in Hv. lia. - intros v a _ Ha _. rewrite (Z0 a) by auto. lia. - intros v a []. - intros v Lv Nv. exfalso. apply Nv, in_seq. lia. }
  destruct (pull_loop_ok (nlv g) fuel depth S0 s1 (seq 0 nv) P0) as (R & s2 & d & E2 & kept & P2); [rewrite seq_length; lia|destruct S0; [congruence|cbn [length]; lia]|].
  rewrite Hnlv in *. rewrite E2. exists R, s2, d. split; auto. split; [|intros e He; pose proof (li_le _ _ _ _ _ _ P2 e He); lia].
  destruct P2 as [h1 h2 h3 h4 h5 h6 h7 h8 h9 h10 h11 h12 h13 h14]. rewrite app_nil_r in *. apply result_of; auto; [intros e He; rewrite <- E0; auto|]. intros a v Ha Lv Hv.
  destruct (in_dec Nat.eq_dec v kept) as [K|K]; [exfalso; pose proof (h13 v a K Ha Hv); pose proof (h8 a Ha); lia|].
  destruct (h14 v Lv (fun x => x) K) as (c & Hc & Hp & Hm & Hb). exists c. auto.
Qed.
End Pull.
