(** C62: the graph of the degrees of freedom of a mesh (interfaces/dofGraph.cpp). *)
From Verif Require Import Base GraphModel CsrProofs Comm TagModel TagProps MigrateModel MigrateProofs1 MeshModel MeshProofs1 MeshProofs2 MeshProofs3 MeshProofs4 MeshProofs5 MeshProofs6 MeshProps.
From Verif Require MeshCheck.

(** the entities of a second dimension appended to those of one part *)
Definition join (o w : Z) (h1 h2 : hdim) : hdim :=
  mkH (h_ents h1 ++ map (fun x => (shift o (fst x), w)) (h_ents h2)) (map (fun ab => fst ab ++ map (fun k => length (h_ents h1) + k) (snd ab)) (combine (h_down h1) (h_down h2))).
Definition joins (o w : Z) (hs1 hs2 : list hdim) : list hdim := map (fun x => join o w (fst x) (snd x)) (combine hs1 hs2).
Lemma joins_nth o w hs1 hs2 p h : nth_error (joins o w hs1 hs2) p = Some h <-> exists h1 h2, nth_error hs1 p = Some h1 /\ nth_error hs2 p = Some h2 /\ h = join o w h1 h2.
Proof.
  unfold joins. rewrite nth_error_map. split.
  - destruct (nth_error (combine hs1 hs2) p) as [(h1, h2)|] eqn:E; [|discriminate]. cbn. intros H. apply nth_combine2_inv in E as (E1 & E2). exists h1, h2. split; auto. split; auto. congruence.
  - intros (h1 & h2 & E1 & E2 & ->). now rewrite (nth_combine2 _ _ _ _ _ _ _ E1 E2).
Qed.
Lemma join_gids o w h1 h2 : gids (join o w h1 h2) = gids h1 ++ map (fun x => (x + o)%Z) (gids h2).
Proof. unfold gids, join. cbn [h_ents]. rewrite map_app, !map_map. reflexivity. Qed.

Section Join.
Variable ms : list pmesh.
Variables hs1 hs2 : list hdim.
Variables o w : Z.
Hypothesis C1 : copies_ok ms hs1.
Hypothesis C2 : copies_ok ms hs2.
Hypothesis DJ : forall p q h1 h2 x y, nth_error hs1 p = Some h1 -> nth_error hs2 q = Some h2 -> In x (gids h1) -> In y (gids h2) -> x <> (y + o)%Z.

Lemma both p h1 : nth_error hs1 p = Some h1 -> exists h2, nth_error hs2 p = Some h2.
Proof. intros H. assert (L : p < length hs2) by (rewrite (co_len _ _ C2), <- (co_len _ _ C1); apply nth_error_Some; congruence). apply nth_error_Some in L. destruct (nth_error hs2 p); [eauto|congruence]. Qed.
Lemma both' p h2 : nth_error hs2 p = Some h2 -> exists h1, nth_error hs1 p = Some h1.
Proof. intros H. assert (L : p < length hs1) by (rewrite (co_len _ _ C1), <- (co_len _ _ C2); apply nth_error_Some; congruence). apply nth_error_Some in L. destruct (nth_error hs1 p); [eauto|congruence]. Qed.
Lemma join_in h1 h2 e x : In (e, x) (h_ents (join o w h1 h2)) <-> In (e, x) (h_ents h1) \/ exists e' x', In (e', x') (h_ents h2) /\ e = shift o e' /\ x = w.
Proof.
  cbn [join h_ents]. rewrite in_app_iff, in_map_iff. split; (intros [I|I]; [now left|right]).
  - destruct I as ((e', x') & E & I). cbn [fst] in E. exists e', x'. split; auto. split; congruence.
  - destruct I as (e' & x' & I & -> & ->). exists (e', x'). auto.
Qed.
Lemma gid1 p h1 e x q h' : nth_error hs1 p = Some h1 -> In (e, x) (h_ents h1) -> nth_error (joins o w hs1 hs2) q = Some h' -> (In (en_gid e) (gids h') <-> exists k1, nth_error hs1 q = Some k1 /\ In (en_gid e) (gids k1)).
Proof.
  intros Hp I Hq. apply joins_nth in Hq as (k1 & k2 & E1 & E2 & ->). rewrite join_gids, in_app_iff. split.
  - intros [J|J]; [eauto|]. exfalso. apply in_map_iff in J as (y & E & J). refine (DJ p q h1 k2 (en_gid e) y Hp E2 _ J _); [|congruence]. unfold gids. apply in_map_iff. exists (e, x). auto.
  - intros (k1' & E & J). left. congruence.
Qed.
Lemma gid2 p h2 e x q h' : nth_error hs2 p = Some h2 -> In (e, x) (h_ents h2) -> nth_error (joins o w hs1 hs2) q = Some h' -> (In (en_gid (shift o e)) (gids h') <-> exists k2, nth_error hs2 q = Some k2 /\ In (en_gid e) (gids k2)).
Proof.
  intros Hp I Hq. apply joins_nth in Hq as (k1 & k2 & E1 & E2 & ->). rewrite join_gids, in_app_iff. cbn [shift en_gid]. split.
  - intros [J|J]; [|]. + exfalso. refine (DJ q p k1 h2 _ (en_gid e) E1 Hp J _ eq_refl). unfold gids. apply in_map_iff. exists (e, x). auto.
    + apply in_map_iff in J as (y & E & J). assert (y = en_gid e) by lia. subst y. eauto.
  - intros (k2' & E & J). right. apply in_map_iff. exists (en_gid e). split; auto. congruence.
Qed.
Lemma join_ok : copies_ok ms (joins o w hs1 hs2).
Proof.
  assert (L1 := co_len _ _ C1). assert (L2 := co_len _ _ C2). constructor.
  - unfold joins. rewrite map_length, combine_length. lia.
  - intros p m h Hm Hh. apply joins_nth in Hh as (h1 & h2 & E1 & E2 & ->). cbn [join h_down]. rewrite map_length, combine_length, (co_down _ _ C1 p m h1 Hm E1), (co_down _ _ C2 p m h2 Hm E2). lia.
  - intros p h Hh. apply joins_nth in Hh as (h1 & h2 & E1 & E2 & ->). rewrite join_gids. apply NoDup_app_iff. split; [exact (co_gid _ _ C1 p h1 E1)|]. split.
    + apply nodup_map_in; [intros; lia|exact (co_gid _ _ C2 p h2 E2)].
    + intros x I J. apply in_map_iff in J as (y & E & J). refine (DJ p p h1 h2 x y E1 E2 I J _). congruence.
  - intros p m h e x Hm Hh I. apply joins_nth in Hh as (h1 & h2 & E1 & E2 & ->). apply join_in in I as [I|(e' & x' & I & -> & ->)]; [exact (co_adj _ _ C1 p m h1 e x Hm E1 I)|]. exact (co_adj _ _ C2 p m h2 e' x' Hm E2 I).
  - intros p h i row Hh Hr. apply joins_nth in Hh as (h1 & h2 & E1 & E2 & ->). cbn [join h_down] in Hr. rewrite nth_error_map in Hr. destruct (nth_error (combine (h_down h1) (h_down h2)) i) as [(r1, r2)|] eqn:E; [|discriminate]. cbn [option_map fst snd] in Hr. assert (row = r1 ++ map (fun k => length (h_ents h1) + k) r2) by congruence. subst row. clear Hr.
    apply nth_combine2_inv in E as (R1 & R2). destruct (co_row _ _ C1 p h1 i r1 E1 R1) as (N1 & I1). destruct (co_row _ _ C2 p h2 i r2 E2 R2) as (N2 & I2). split.
    + apply NoDup_app_iff. split; auto. split; [apply nodup_map_in; auto; intros; lia|]. intros k I J. apply I1 in I as (e & x & He & _). apply in_map_iff in J as (k' & <- & _). assert (length (h_ents h1) + k' < length (h_ents h1)) by (apply nth_error_Some; congruence). lia.
    + intros k. rewrite in_app_iff, in_map_iff. cbn [join h_ents]. split.
      * intros [I|(k' & <- & I)].
        -- apply I1 in I as (e & x & He & Ia). exists e, x. split; auto. rewrite nth_error_app1; auto. apply nth_error_Some. congruence.
        -- apply I2 in I as (e & x & He & Ia). exists (shift o e), w. split; auto. rewrite nth_error_app2 by lia. replace (length (h_ents h1) + k' - length (h_ents h1)) with k' by lia. rewrite nth_error_map, He. reflexivity.
      * intros (e & x & He & Ia). destruct (Nat.lt_ge_cases k (length (h_ents h1))) as [L|L].
        -- left. rewrite nth_error_app1 in He by auto. apply I1. eauto.
        -- right. rewrite nth_error_app2, nth_error_map in He by auto. destruct (nth_error (h_ents h2) (k - length (h_ents h1))) as [(e', x')|] eqn:E; [|discriminate]. cbn in He. exists (k - length (h_ents h1)). split; [lia|]. apply I2. exists e', x'. split; auto. inversion He; subst e. exact Ia.
  - intros p h e x Hh I. apply joins_nth in Hh as (h1 & h2 & E1 & E2 & ->). apply join_in in I as [I|(e' & x' & I & -> & ->)].
    + destruct (co_res _ _ C1 p h1 e x E1 I) as (N & J). split; auto. intros q. rewrite J. split.
      * intros (q' & h' & -> & Hq & Ig). destruct (both q' h' Hq) as (k2 & Hk). exists q', (join o w h' k2). split; auto. assert (HJ : nth_error (joins o w hs1 hs2) q' = Some (join o w h' k2)) by (apply joins_nth; eauto). split; auto. apply (gid1 p h1 e x q' _ E1 I HJ). eauto.
      * intros (q' & h' & -> & Hq & Ig). apply (gid1 p h1 e x q' _ E1 I Hq) in Ig as (k1 & K1 & K2). exists q', k1. auto.
    + destruct (co_res _ _ C2 p h2 e' x' E2 I) as (N & J). split; auto. cbn [shift en_res]. intros q. rewrite J. split.
      * intros (q' & h' & -> & Hq & Ig). destruct (both' q' h' Hq) as (k1 & Hk). exists q', (join o w k1 h'). split; auto. assert (HJ : nth_error (joins o w hs1 hs2) q' = Some (join o w k1 h')) by (apply joins_nth; eauto). split; auto. apply (gid2 p h2 e' x' q' _ E2 I HJ). eauto.
      * intros (q' & h' & -> & Hq & Ig). apply (gid2 p h2 e' x' q' _ E2 I Hq) in Ig as (k2 & K1 & K2). exists q', k2. auto.
  - intros p h e x Hh I. apply joins_nth in Hh as (h1 & h2 & E1 & E2 & ->). apply join_in in I as [I|(e' & x' & I & -> & ->)]; [exact (co_shared _ _ C1 p h1 e x E1 I)|exact (co_shared _ _ C2 p h2 e' x' E2 I)].
Qed.
Lemma touches_join x v : touches ms (joins o w hs1 hs2) x v <-> touches ms hs1 x v \/ touches ms hs2 (x - o) v.
Proof.
  split.
  - intros (p & m & h & e & y & i & H1 & H2 & H3 & H4 & H5 & H6). apply joins_nth in H2 as (h1 & h2 & E1 & E2 & ->). apply join_in in H3 as [I|(e' & x' & I & -> & ->)].
    + left. exists p, m, h1, e, y, i. repeat (split; auto). + right. exists p, m, h2, e', x', i. repeat (split; auto). cbn [shift en_gid] in H4. lia.
  - intros [(p & m & h & e & y & i & H1 & H2 & H3 & H4 & H5 & H6)|(p & m & h & e & y & i & H1 & H2 & H3 & H4 & H5 & H6)].
    + destruct (both p h H2) as (h2 & E2). exists p, m, (join o w h h2), e, y, i. split; auto. split; [apply joins_nth; eauto|]. split; [apply join_in; now left|auto].
    + destruct (both' p h H2) as (h1 & E1). exists p, m, (join o w h1 h), (shift o e), w, i. split; auto. split; [apply joins_nth; eauto|]. split; [apply join_in; right; eauto|]. split; [cbn [shift en_gid]; lia|auto].
Qed.
End Join.

(** the parts without hyperedges *)
Definition none (ms : list pmesh) : list hdim := map (fun m => mkH [] (map (fun _ => []) (pm_prim m))) ms.
Lemma none_ok ms : copies_ok ms (none ms).
Proof.
  assert (NE : forall p h, nth_error (none ms) p = Some h -> exists m, nth_error ms p = Some m /\ h = mkH [] (map (fun _ => []) (pm_prim m))).
  { unfold none. intros p h H. rewrite nth_error_map in H. destruct (nth_error ms p) as [m|]; [|discriminate]. cbn in H. exists m. split; auto. congruence. }
  constructor.
  - unfold none. apply map_length.
  - intros p m h Hm Hh. apply NE in Hh as (m' & Hm' & ->). cbn. rewrite map_length. congruence.
  - intros p h Hh. apply NE in Hh as (m' & Hm' & ->). constructor.
  - intros p m h e w Hm Hh I. apply NE in Hh as (m' & Hm' & ->). destruct I.
  - intros p h i row Hh Hr. apply NE in Hh as (m' & Hm' & ->). cbn [h_down] in Hr. rewrite nth_error_map in Hr. destruct (nth_error (pm_prim m') i); [|discriminate]. cbn in Hr. inversion Hr; subst row. split; [constructor|]. intros k. split; [intros []|]. intros (e & w & He & _). cbn in He. destruct k; discriminate.
  - intros p h e w Hh I. apply NE in Hh as (m' & Hm' & ->). destruct I.
  - intros p h e w Hh I. apply NE in Hh as (m' & Hm' & ->). destruct I.
Qed.

Section Dof.
Variable order : Z.
Variable offs : list nat.
Variable ms : list pmesh.
Variable dim : nat.
Variable hsd : nat -> list hdim.
Hypothesis HD : forall m, In m ms -> length (pm_dims m) = dim.
Hypothesis HM : forall d, d < dim -> hasDOFs order d = true -> mesh_dim_ok ms d (hsd d).
Notation off d := (Z.of_nat (nth (d + 1) offs 0)).
(* the renumbered entities of different dimensions have different numbers *)
Hypothesis HX : forall d d' p q x y, d < d' < dim -> hasDOFs order d = true -> hasDOFs order d' = true -> has_copy (hsd d) p x -> has_copy (hsd d') q y -> (x + off d <> y + off d')%Z.

Definition upto (k : nat) (m : pmesh) : hdim := fold_left (dof_add order offs) (combine (seq 0 k) (firstn k (pm_dims m))) (mkH [] (map (fun _ => []) (pm_prim m))).
Lemma combine_snoc A B (a : list A) (b : list B) x y : length a = length b -> combine (a ++ [x]) (b ++ [y]) = combine a b ++ [(x, y)].
Proof. revert b. induction a as [|z a IH]; intros [|z' b] L; cbn in L |- *; try lia; auto. rewrite IH; auto. Qed.
Lemma upto_S k m d : nth_error (pm_dims m) k = Some d -> upto (S k) m = dof_add order offs (upto k m) (k, d).
Proof.
  intros H. unfold upto. rewrite (ZoltanProps.firstn_next _ _ _ _ H), seq_S. cbn [Nat.add]. rewrite combine_snoc, fold_left_app; [reflexivity|]. rewrite seq_length, firstn_length. assert (k < length (pm_dims m)) by (apply nth_error_Some; congruence). lia.
Qed.
Lemma upto_all m : In m ms -> dof_dim order offs m = Some (upto dim m).
Proof. intros H. unfold dof_dim, upto. rewrite (HD m H). rewrite firstn_all2 by (rewrite HD; auto). reflexivity. Qed.
Lemma dim_at m k : In m ms -> k < dim -> exists d, nth_error (pm_dims m) k = Some d.
Proof. intros H L. rewrite <- (HD m H) in L. apply nth_error_Some in L. destruct (nth_error (pm_dims m) k); [eauto|congruence]. Qed.
Lemma step_join k : k < dim -> hasDOFs order k = true -> map (upto (S k)) ms = joins (off k) (numDOFs order k) (map (upto k) ms) (hsd k).
Proof.
  intros L HK. destruct (HM k L HK) as (M & _). unfold joins. apply nth_error_ext. intros p. rewrite !nth_error_map. destruct (nth_error ms p) as [m|] eqn:Hm.
  - assert (Im : In m ms) by (eapply nth_error_In; eauto). destruct (dim_at m k Im L) as (d & Hd). destruct (mapM_nth _ _ _ _ _ _ _ M Hm) as (h & Y1 & Y2). assert (HP : nth_error (map (upto k) ms) p = Some (upto k m)) by (rewrite nth_error_map, Hm; reflexivity).
    assert (HH : nth_error (hsd k) p = Some h) by congruence. assert (HE : apf_dim k m = Some h) by congruence. rewrite (nth_combine2 _ _ _ _ _ _ _ HP HH). cbn [option_map fst snd]. f_equal. rewrite (upto_S k m d Hd). unfold dof_add, join. cbn [fst snd]. rewrite HK.
    unfold apf_dim in HE. rewrite Hd in HE. cbn [obind] in HE. inversion HE; subst h. cbn [h_ents h_down]. rewrite map_map. reflexivity.
  - assert (E : nth_error (combine (map (upto k) ms) (hsd k)) p = None). { apply nth_error_None. rewrite combine_length, map_length. apply nth_error_None in Hm. lia. } now rewrite E.
Qed.
Lemma step_skip k : k < dim -> hasDOFs order k = false -> map (upto (S k)) ms = map (upto k) ms.
Proof. intros L HK. apply map_ext_in. intros m Im. destruct (dim_at m k Im L) as (d & Hd). rewrite (upto_S k m d Hd). unfold dof_add. cbn [fst]. now rewrite HK. Qed.
(* the hyperedges of the first k dimensions *)
Definition good (k : nat) : Prop := let hs := map (upto k) ms in copies_ok ms hs /\
  (forall p x w, (exists h e, nth_error hs p = Some h /\ In (e, w) (h_ents h) /\ en_gid e = x) <-> exists d h e w', d < k /\ hasDOFs order d = true /\ nth_error (hsd d) p = Some h /\ In (e, w') (h_ents h) /\ x = (en_gid e + off d)%Z /\ w = numDOFs order d) /\
  (forall x v, touches ms hs x v <-> exists d, d < k /\ hasDOFs order d = true /\ touches ms (hsd d) (x - off d) v).
Lemma good_all k : k <= dim -> good k.
Proof.
  induction k as [|k IH]; intros L.
  - unfold good. replace (map (upto 0) ms) with (none ms) by reflexivity. split; [apply none_ok|]. split.
    + intros p x w. split; [|intros (d & _ & _ & _ & L0 & _); lia]. intros (h & e & H & I & _). unfold none in H. rewrite nth_error_map in H. destruct (nth_error ms p); [|discriminate]. cbn in H. inversion H; subst h. destruct I.
    + intros x v. split; [|intros (d & L0 & _); lia]. intros (p & m & h & e & w & i & H1 & H & I & _). unfold none in H. rewrite nth_error_map in H. destruct (nth_error ms p); [|discriminate]. cbn in H. inversion H; subst h. destruct I.
  - destruct (IH ltac:(lia)) as (C & GI & GT). unfold good. destruct (hasDOFs order k) eqn:HK.
    + rewrite (step_join k ltac:(lia) HK). destruct (HM k ltac:(lia) HK) as (M & C2).
      assert (DJ : forall p q h1 h2 x y, nth_error (map (upto k) ms) p = Some h1 -> nth_error (hsd k) q = Some h2 -> In x (gids h1) -> In y (gids h2) -> x <> (y + off k)%Z).
      { intros p q h1 h2 x y E1 E2 I1 I2. apply in_map_iff in I1 as ((e & w) & Ex & I1). cbn [fst] in Ex. destruct (proj1 (GI p x w)) as (d & h & e' & w' & Ld & Kd & Hd & Ie & -> & _); [exists h1, e; auto|].
        assert (L1 : d < k < dim) by lia. apply (HX d k p q (en_gid e') y L1 Kd HK); [exists h, e', w'; auto|]. apply in_map_iff in I2 as ((e2 & w2) & Ey & I2). exists h2, e2, w2. auto. }
      split; [apply join_ok; auto|]. split.
      * intros p x w. split.
        -- intros (h & e & H & I & E). apply joins_nth in H as (h1 & h2 & E1 & E2 & ->). apply join_in in I as [I|(e' & x' & I & -> & ->)].
           ++ destruct (proj1 (GI p x w)) as (d & h & e' & w' & Ld & K); [exists h1, e; auto|]. exists d, h, e', w'. split; [lia|auto].
           ++ exists k, h2, e', x'. cbn [shift en_gid] in E. split; [lia|]. repeat (split; auto).
        -- intros (d & h & e & w' & Ld & Kd & Hd & Ie & -> & ->). destruct (Nat.eq_dec d k) as [->|NE].
           ++ destruct (both' ms _ _ C C2 p h Hd) as (h1 & E1). exists (join (off k) (numDOFs order k) h1 h), (shift (off k) e). split; [apply joins_nth; eauto|]. split; [apply join_in; right; eauto|reflexivity].
           ++ destruct (proj2 (GI p (en_gid e + off d)%Z (numDOFs order d))) as (h1 & e1 & E1 & I1 & X1); [exists d, h, e, w'; split; [lia|auto 10]|]. destruct (both ms _ _ C C2 p h1 E1) as (h2 & E2).
              exists (join (off k) (numDOFs order k) h1 h2), e1. split; [apply joins_nth; eauto|]. split; [apply join_in; now left|auto].
      * intros x v. rewrite (touches_join ms _ _ _ _ C C2), GT. split.
        -- intros [(d & Ld & K)|T]; [exists d; split; [lia|auto]|exists k; split; [lia|auto]].
        -- intros (d & Ld & Kd & T). destruct (Nat.eq_dec d k) as [->|NE]; [now right|left; exists d; split; [lia|auto]].
    + rewrite (step_skip k ltac:(lia) HK). split; auto. split.
      * intros p x w. rewrite GI. split; intros (d & h & e & w' & Ld & Kd & K); exists d, h, e, w'; (split; [|auto]); [lia|]. assert (d <> k) by congruence. lia.
      * intros x v. rewrite GT. split; intros (d & Ld & Kd & K); exists d; (split; [|auto]); [lia|]. assert (d <> k) by congruence. lia.
Qed.
End Dof.

(** the entities that hold degrees of freedom, of the first k dimensions *)
Definition dof_total (order : Z) (ms : list pmesh) (k : nat) : nat := nsum (map (fun d => if hasDOFs order d then apf_global_edges ms d else 0) (seq 0 k)).
Lemma nsum_const (ms : list pmesh) c : nsum (map (fun _ : pmesh => c) ms) = length ms * c.
Proof. induction ms as [|m ms IH]; [reflexivity|]. cbn [map nsum fold_right length]. fold (nsum (map (fun _ : pmesh => c) ms)). rewrite IH. lia. Qed.
Lemma dof_total_S order ms k : dof_total order ms (S k) = dof_total order ms k + (if hasDOFs order k then apf_global_edges ms k else 0).
Proof. unfold dof_total. rewrite seq_S, map_app, nsum_app. cbn. lia. Qed.
Lemma dof_counts_ok order ms n k : k <= n -> let s := fold_left (dof_count order ms) (seq 0 k) (0, repeat 0 (n + 1)) in
  fst s = length ms * dof_total order ms k /\ length (snd s) = n + 1 /\ forall d, d < k -> hasDOFs order d = true -> nth (d + 1) (snd s) 0 = length ms * dof_total order ms (S d).
Proof.
  induction k as [|k IH]; intros L; cbn zeta.
  - cbn. rewrite repeat_length. split; [lia|]. split; [reflexivity|]. intros; lia.
  - destruct (IH ltac:(lia)) as (H1 & H2 & H3). rewrite seq_S, fold_left_app. cbn [Nat.add fold_left]. destruct (fold_left (dof_count order ms) (seq 0 k) (0, repeat 0 (n + 1))) as (c, os) eqn:E. cbn [fst snd] in *.
    unfold dof_count. cbn [fst snd]. destruct (hasDOFs order k) eqn:HK; cbn [fst snd].
    + rewrite nsum_const, H1. assert (T : length ms * dof_total order ms k + length ms * nsum (map (fun m => owned_ents m k) ms) = length ms * dof_total order ms (S k)) by (rewrite dof_total_S, HK; unfold apf_global_edges; lia). split; auto. split; [rewrite ColorProofs.upd_len; auto|].
      intros d Ld Kd. destruct (Nat.eq_dec d k) as [->|NE].
      * rewrite (nth_error_nth (upd os (k + 1) _) (k + 1) 0 (x := length ms * dof_total order ms k + length ms * nsum (map (fun m => owned_ents m k) ms))); auto. apply ColorProofs.nth_upd_eq. lia.
      * rewrite <- (H3 d ltac:(lia) Kd). assert (Hn : nth_error (upd os (k + 1) (length ms * dof_total order ms k + length ms * nsum (map (fun m => owned_ents m k) ms))) (d + 1) = nth_error os (d + 1)) by (apply ColorProofs.nth_upd_neq; lia).
        assert (Lo : d + 1 < length os) by lia. rewrite (nth_error_nth' os 0 Lo) in Hn. exact (nth_error_nth _ _ _ Hn).
    + split; [rewrite dof_total_S, HK; lia|]. split; auto. intros d Ld Kd. assert (d <> k) by congruence. apply H3; auto. lia.
Qed.
Lemma dof_total_mono order ms k k' : k <= k' -> dof_total order ms k <= dof_total order ms k'.
Proof. induction 1 as [|k' H IH]; [lia|]. rewrite dof_total_S. lia. Qed.
Lemma hasDOFs_down order d d' : d <= d' -> hasDOFs order d' = true -> hasDOFs order d = true.
Proof. intros L H. destruct d' as [|[|[|d']]], d as [|[|[|d]]]; cbn [hasDOFs] in *; try lia; auto; try discriminate; apply Z.leb_le in H; apply Z.leb_le; lia. Qed.

(** the number that entity x of dimension d has as a hyperedge *)
Definition dof_gid (order : Z) (ms : list pmesh) (d : nat) (x : Z) : Z := (x + Z.of_nat (length ms * dof_total order ms (S d)))%Z.

(** For every consistent mesh whose entities are numbered from 0 in each dimension and whose dimensions with degrees of freedom do not shrink too much ([N_d <= P * N_(d+1)]), the graph is
    built, with one hyperedge for each entity that holds degrees of freedom, weighted by their number, and its pins and adjacencies are those of the mesh.  Partial: without the last condition
    the construction fails, see below. *)
Theorem C62_dof_graph_partial : forall order dim ms fuel hsd, owned_once ms -> nsum (map countOwned ms) <> 0 ->
  (forall m, In m ms -> length (pm_dims m) = dim) ->
  (forall d, d < dim -> hasDOFs order d = true -> mesh_dim_ok ms d (hsd d)) ->
  (forall d p x, d < dim -> hasDOFs order d = true -> has_copy (hsd d) p x -> (0 <= x < Z.of_nat (apf_global_edges ms d))%Z) ->
  (forall d, d + 1 < dim -> hasDOFs order (d + 1) = true -> apf_global_edges ms d <= length ms * apf_global_edges ms (d + 1)) ->
  nsum (map countOwned ms) < fuel -> (forall m, In m ms -> nsum (map (fun d => length (md_ents d)) (pm_dims m)) < fuel) ->
  dofGraph order dim fuel ms (fun rs => exists hs, copies_ok ms hs /\ length rs = length ms /\
    (forall p m, nth_error ms p = Some m -> exists g gw, nth_error rs p = Some (g, gw) /\ right_part ms [hs] fuel p m g gw) /\
    (forall p x w, (exists h e, nth_error hs p = Some h /\ In (e, w) (h_ents h) /\ en_gid e = x) <->
       exists d h e w', d < dim /\ hasDOFs order d = true /\ nth_error (hsd d) p = Some h /\ In (e, w') (h_ents h) /\ x = dof_gid order ms d (en_gid e) /\ w = numDOFs order d) /\
    (forall d p x v, d < dim -> hasDOFs order d = true -> has_copy (hsd d) p x -> (touches ms hs (dof_gid order ms d x) v <-> touches ms (hsd d) x v))).
Proof.
  intros order dim ms fuel hsd HO NZ HD HM HR HN HF1 HF2. set (offs := snd (dof_counts order dim ms)). destruct (dof_counts_ok order ms dim dim (le_n _)) as (_ & _ & HOff). change (fold_left (dof_count order ms) (seq 0 dim) (0, repeat 0 (dim + 1))) with (dof_counts order dim ms) in HOff. fold offs in HOff.
  assert (HX : forall d d' p q x y, d < d' < dim -> hasDOFs order d = true -> hasDOFs order d' = true -> has_copy (hsd d) p x -> has_copy (hsd d') q y -> (x + Z.of_nat (nth (d + 1) offs 0%nat) <> y + Z.of_nat (nth (d' + 1) offs 0%nat))%Z).
  { intros d d' p q x y L K K' C C'. rewrite (HOff d) by (auto; lia). rewrite (HOff d') by (auto; lia). pose proof (HR d p x ltac:(lia) K C) as R. pose proof (HR d' q y ltac:(lia) K' C') as R'.
    assert (K1 : hasDOFs order (d + 1) = true) by (apply (hasDOFs_down order (d + 1) d'); [lia|auto]). pose proof (HN d ltac:(lia) K1) as B.
    assert (T : length ms * dof_total order ms (S d) + length ms * apf_global_edges ms (d + 1) = length ms * dof_total order ms (S (d + 1))) by (rewrite (dof_total_S order ms (d + 1)), K1, Nat.add_1_r; lia).
    assert (T2 : length ms * dof_total order ms (S (d + 1)) <= length ms * dof_total order ms (S d')) by (apply Nat.mul_le_mono_l; apply dof_total_mono; lia). lia. }
  pose proof (good_all order offs ms dim hsd HD HM HX dim (le_n _)) as (C & GI & GT). set (hs := map (upto order offs dim) ms) in *.
  unfold dofGraph. fold offs. apply (mesh_graph_ok ms [hs] fuel HO); auto.
  - intros hs' [<-|[]]. exact C.
  - intros hs' h [<-|[]] Ih. unfold hs in Ih. apply in_map_iff in Ih as (m & <- & Im). eapply Nat.le_lt_trans; [|exact (HF2 m Im)]. unfold upto. rewrite firstn_all2 by (rewrite HD; auto).
    assert (LE : forall (l : list (nat * mdim)) h0, length (h_ents (fold_left (dof_add order offs) l h0)) <= length (h_ents h0) + nsum (map (fun x => length (md_ents (snd x))) l)).
    { clear. induction l as [|(d, x) l IH]; intros h0; cbn [fold_left map nsum fold_right]; [lia|]. fold (nsum (map (fun x => length (md_ents (snd x))) l)). eapply Nat.le_trans; [apply IH|]. unfold dof_add. cbn [fst snd]. destruct (hasDOFs order d); cbn [h_ents]; rewrite ?app_length, ?map_length; lia. }
    eapply Nat.le_trans; [apply LE|]. cbn [h_ents length Nat.add]. apply Nat.eq_le_incl. f_equal. rewrite <- (map_map snd (fun d => length (md_ents d))). f_equal. clear - HD Im. rewrite <- (HD m Im). generalize 0. induction (pm_dims m) as [|d l IH]; intros k; [reflexivity|]. cbn. f_equal. apply IH.
  - intros [|[|t]] get hs' H1 H2; cbn in H1, H2; try discriminate. inversion H1; inversion H2; subst. apply mapM_by_nth; [unfold hs; now rewrite map_length|]. intros i m h Hi Hh. unfold hs in Hh. rewrite nth_error_map, Hi in Hh. cbn in Hh. rewrite (upto_all order offs ms dim HD m) by (eapply nth_error_In; eauto). exact Hh.
  - intros rs L H. exists hs. split; auto. split; auto. split; [|split].
    + intros p m Hm. destruct (H p m Hm) as (g & gw & a & K1 & _ & _ & _ & K). eauto.
    + intros p x w. rewrite GI. split; intros (d & h & e & w' & K1 & K2 & K3 & K4 & K5 & K6); exists d, h, e, w'; repeat (split; auto); rewrite K5; unfold dof_gid; rewrite (HOff d K1 K2); reflexivity.
    + intros d p x v Ld Kd HC. rewrite GT. unfold dof_gid. split.
      * intros (d' & Ld' & Kd' & T). rewrite (HOff d' Ld' Kd') in T. assert (HC' : exists q, has_copy (hsd d') q (x + Z.of_nat (length ms * dof_total order ms (S d)) - Z.of_nat (length ms * dof_total order ms (S d')))%Z). { destruct T as (q & m & h & e & w & i & T1 & T2 & T3 & T4 & _). exists q, h, e, w. auto. }
        destruct HC' as (q & HC'). destruct (Nat.lt_trichotomy d d') as [Hl|[->|Hl]].
        -- exfalso. refine (HX d d' p q _ _ (conj Hl Ld') Kd Kd' HC HC' _). rewrite (HOff d Ld Kd), (HOff d' Ld' Kd'). lia.
        -- replace (x + Z.of_nat (length ms * dof_total order ms (S d')) - Z.of_nat (length ms * dof_total order ms (S d')))%Z with x in T by lia. exact T.
        -- exfalso. refine (HX d' d q p _ _ (conj Hl Ld) Kd' Kd HC' HC _). rewrite (HOff d Ld Kd), (HOff d' Ld' Kd'). lia.
      * intros T. exists d. split; auto. split; auto. rewrite (HOff d Ld Kd). replace (x + Z.of_nat (length ms * dof_total order ms (S d)) - Z.of_nat (length ms * dof_total order ms (S d)))%Z with x by lia. exact T.
Qed.
Print Assumptions C62_dof_graph_partial.

(** the reported number of hyperedges counts every entity once per part: it is wrong for every mesh on two or more parts *)
Theorem C62_dof_global_edges_refuted : forall order dim ms, fst (dof_counts order dim ms) = length ms * dof_total order ms dim /\
  (2 <= length ms -> dof_total order ms dim <> 0 -> fst (dof_counts order dim ms) <> dof_total order ms dim).
Proof.
  intros. destruct (dof_counts_ok order ms dim dim (le_n _)) as (H & _). change (fold_left (dof_count order ms) (seq 0 dim) (0, repeat 0 (dim + 1))) with (dof_counts order dim ms) in H. split; [exact H|]. intros L N. rewrite H. nia.
Qed.
Print Assumptions C62_dof_global_edges_refuted.

(** ** Examples *)
(** the mesh of MeshProps with its entities numbered from 0 in each dimension: quadratic elements have degrees of freedom at vertices and edges *)
Example ex_dof : (forall m, In m ex_mesh -> length (pm_dims m) = 2) /\ (forall d, d < 2 -> hasDOFs 2 d = true -> mesh_dim_ok ex_mesh d (ex_hs d)) /\
  (forall d p x, d < 2 -> hasDOFs 2 d = true -> has_copy (ex_hs d) p x -> (0 <= x < Z.of_nat (apf_global_edges ex_mesh d))%Z) /\
  (forall d, d + 1 < 2 -> hasDOFs 2 (d + 1) = true -> apf_global_edges ex_mesh d <= length ex_mesh * apf_global_edges ex_mesh (d + 1)) /\
  (forall m, In m ex_mesh -> nsum (map (fun d => length (md_ents d)) (pm_dims m)) < 20).
Proof.
  split; [|split; [|split; [|split]]].
  - intros m [<-|[<-|[]]]; reflexivity.
  - pose proof ex_hss as F. inversion F as [|? ? ? ? F1 F2]; subst. inversion F2 as [|? ? ? ? F3 _]; subst. intros [|[|d]] L _; auto. lia.
  - intros d p x L _ (h & e & w & Hp & I & <-). assert (HH : forallb (fun h => forallb (fun x => (0 <=? en_gid (fst x))%Z && (en_gid (fst x) <? Z.of_nat (apf_global_edges ex_mesh d))%Z) (h_ents h)) (ex_hs d) = true) by (destruct d as [|[|d]]; [vm_compute; reflexivity|vm_compute; reflexivity|lia]).
    rewrite forallb_forall in HH. specialize (HH h ltac:(eapply nth_error_In; eauto)). rewrite forallb_forall in HH. specialize (HH _ I). cbn [fst] in HH. apply andb_true_iff in HH as (H1 & H2). apply Z.leb_le in H1. apply Z.ltb_lt in H2. lia.
  - intros [|d] L _; [|lia]. apply Nat.leb_le. vm_compute. reflexivity.
  - intros m [<-|[<-|[]]]; apply Nat.ltb_lt; vm_compute; reflexivity.
Qed.
Example ex_dof_count : fst (dof_counts 2 2 ex_mesh) = 36 /\ dof_total 2 ex_mesh 2 = 18. Proof. split; vm_compute; reflexivity. Qed.

(** one hexahedron: 8 vertices, 12 edges, 6 faces, on one part *)
Definition hex_dim (n : nat) : mdim := mkDim (map (fun i => mkEnt (Z.of_nat i) true [0%Z] false [0]) (seq 0 n)) [seq 0 n].
Definition hex : list pmesh := [mkMesh [(0%Z, true)] [hex_dim 8; hex_dim 12; hex_dim 6]].
Definition hex_hs (d : nat) : list hdim := match mapM (apf_dim d) hex with Some hs => hs | None => [] end.
(** the mesh is consistent and its entities are numbered from 0, but no graph for elements of order 4 is built: edges 6 to 11 get the numbers of the faces *)
Theorem C62_dof_collision_refuted : owned_once hex /\ nsum (map countOwned hex) <> 0 /\ (forall d, d < 3 -> mesh_dim_ok hex d (hex_hs d)) /\
  (forall d p x, d < 3 -> has_copy (hex_hs d) p x -> (0 <= x < Z.of_nat (apf_global_edges hex d))%Z) /\
  forall fuel Q, ~ dofGraph 4 3 fuel hex Q.
Proof.
  split; [apply MeshCheck.owned_onceb_ok; vm_compute; reflexivity|]. split; [vm_compute; discriminate|]. split; [|split].
  - intros d L. destruct d as [|[|[|d]]]; [| | |lia]; (split; [vm_compute; reflexivity|apply MeshCheck.copies_okb_ok; vm_compute; reflexivity]).
  - intros d p x L (h & e & w & Hp & I & <-). assert (HH : forallb (fun h => forallb (fun x => (0 <=? en_gid (fst x))%Z && (en_gid (fst x) <? Z.of_nat (apf_global_edges hex d))%Z) (h_ents h)) (hex_hs d) = true) by (destruct d as [|[|[|d]]]; [vm_compute; reflexivity|vm_compute; reflexivity|vm_compute; reflexivity|lia]).
    rewrite forallb_forall in HH. specialize (HH h ltac:(eapply nth_error_In; eauto)). rewrite forallb_forall in HH. specialize (HH _ I). cbn [fst] in HH. apply andb_true_iff in HH as (H1 & H2). apply Z.leb_le in H1. apply Z.ltb_lt in H2. lia.
  - intros fuel Q (_ & sts & E & ws & W & _). assert (ES : mapM setupPrimary (ranked hex) = Some [mkA 0 (nth 0 hex (mkMesh [] [])) 1 [Some 0%Z] [Some 1%Z] [(0%Z, 0)] [] [] []]) by (vm_compute; reflexivity). assert (X : Some [mkA 0 (nth 0 hex (mkMesh [] [])) 1 [Some 0%Z] [Some 1%Z] [(0%Z, 0)] [] [] []] = Some sts) by (rewrite <- ES; exact E). injection X as X. rewrite <- X in W. clear - W.
    assert (F : mapM (setup true (dof_dim 4 (snd (dof_counts 4 3 hex)))) [mkA 0 (nth 0 hex (mkMesh [] [])) 1 [Some 0%Z] [Some 1%Z] [(0%Z, 0)] [] [] []] = None) by (vm_compute; reflexivity). assert (Y : None = Some ws) by (rewrite <- F; exact W). discriminate Y.
Qed.
Print Assumptions C62_dof_collision_refuted.

(** the dimensions taken are those with at least one degree of freedom per entity *)
Theorem C62_dof_holders : forall order d, (1 <= order)%Z -> (hasDOFs order d = true <-> (0 < numDOFs order d)%Z) /\ (hasDOFs order d = false <-> numDOFs order d = 0%Z).
Proof.
  intros order d H. unfold numDOFs. destruct d as [|[|[|d]]]; cbn [hasDOFs]; [split; split; auto; lia| | |split; split; try discriminate; auto; lia].
  - destruct (Z.leb_spec 2 order); split; split; try discriminate; auto; lia. - destruct (Z.leb_spec 4 order); split; split; try discriminate; auto; lia.
Qed.
Print Assumptions C62_dof_holders.
(** on a quadrilateral (4 vertices, 4 edges, 1 face) the degrees of freedom add up to the dimension (r^2 + 3r + 6) / 2 of the serendipity space of order r >= 2 up to order 4, and not beyond *)
Theorem C62_quad_dofs_refuted : forall r, (2 <= r)%Z -> (2 * (4 * numDOFs r 0 + 4 * numDOFs r 1 + numDOFs r 2) = r * r + 3 * r + 6 <-> r <= 4)%Z.
Proof.
  intros r H. unfold numDOFs. cbn [hasDOFs]. destruct (Z.leb_spec 2 r); [|lia]. destruct (Z.leb_spec 4 r).
  - split; [nia|]. intros. assert (r = 4%Z) by lia. subst r. reflexivity.
  - split; [lia|]. intros _. assert (r = 2%Z \/ r = 3%Z) as [->| ->] by lia; reflexivity.
Qed.
Print Assumptions C62_quad_dofs_refuted.
