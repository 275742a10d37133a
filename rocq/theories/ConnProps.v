(** C36: countDisconnected. *)
From Verif Require Import Base GraphModel GraphSpec TagModel CsrProofs ConstructProofs AccessProofs AccessProofs2 CountProofs GraphTop GraphTop2 GraphTop3 GraphProps SecondAdjProofs SecondAdjProps TagProps ConnModel ConnSpec.

Lemma mapM_each {X Y} (f : X -> option Y) l ys x : mapM f l = Some ys -> In x l -> exists y, f x = Some y.
Proof.
  revert ys; induction l as [|a l IH]; intros ys E I; [destruct I|]. cbn in E. destruct (f a) as [y|] eqn:Ey; [|discriminate]. cbn in E.
  destruct (mapM f l) as [r|] eqn:Er; [|discriminate]. destruct I as [<-|I]; eauto.
Qed.

Section Search.
Variables (g : graph) (n : nat) (afuel : nat) (nbr : nat -> nat -> Prop).
Hypothesis Hn : nlv g = n.
Hypothesis Hadj : forall l, l < n -> exists hs, adjacent g (S l) 0 afuel = Some hs /\
  (forall h, In h hs -> exists k, h = S k /\ ((k < n /\ owner g h = Some (self g)) \/ (n <= k /\ exists o, owner g h = Some o /\ o <> self g))) /\
  (forall k, k < n -> (In (S k) hs <-> nbr l k)).

Definition marked (tag : arr Z) (k : nat) : Prop := aget tag k = Some 1%Z.
Definition tag_ok (tag : arr Z) : Prop := length tag = n /\ forall k, k < n -> aget tag k = Some 0%Z \/ aget tag k = Some 1%Z.

(** the state reached: queue holds Q; marked = V0 + Q *)
Record inv (V0 : nat -> Prop) (Q : list nat) (s : bst) : Prop := mkInv {
  iv_q : forall i k, nth_error Q i = Some k -> aget (b_queue s) i = Some (S k);
  iv_len : length (b_queue s) = n;
  iv_size : b_qsize s = length Q;
  iv_nd : NoDup Q;
  iv_lt : forall k, In k Q -> k < n;
  iv_tag : tag_ok (b_vis s);
  iv_vis : forall k, k < n -> (marked (b_vis s) k <-> V0 k \/ In k Q)
}.

Lemma bounded_nodup (Q : list nat) : NoDup Q -> (forall k, In k Q -> k < n) -> length Q <= n.
Proof. intros N H. rewrite <- (seq_length n 0). apply NoDup_incl_length; auto. intros k K. apply in_seq. specialize (H _ K). lia. Qed.

Lemma other_step V0 Q s h k : inv V0 Q s -> h = S k ->
  ((k < n /\ owner g h = Some (self g)) \/ (n <= k /\ exists o, owner g h = Some o /\ o <> self g)) ->
  exists s' X, bfs_other g s h = Some s' /\ inv V0 (Q ++ X) s' /\ (X = [] \/ (X = [k] /\ k < n)) /\ (k < n -> marked (b_vis s') k) /\
    (forall j, j < n -> marked (b_vis s) j -> marked (b_vis s') j).
Proof.
  intros I -> D. unfold bfs_other. destruct D as [[L E]|[L [o [E NE]]]]; rewrite E; cbn [obind].
  - rewrite Z.eqb_refl. cbn [negb]. unfold get_vtag. cbn [vlid obind]. rewrite Hn. destruct (Nat.leb_spec n k) as [X|_]; [lia|].
    destruct I as [Iq Il Is Ind Ilt [Itl It] Iv].
    destruct (It k L) as [T|T]; rewrite T; cbn [obind].
    + cbn [Z.eqb]. assert (NQ : ~ In k Q). { intros K. assert (marked (b_vis s) k) by (apply Iv; auto). unfold marked in H; congruence. }
      assert (LQ : length Q < n).
      { assert (length (Q ++ [k]) <= n). { apply bounded_nodup. { apply NoDup_app_intro || (apply (Permutation_NoDup (l := k :: Q)); [apply Permutation_cons_append|constructor; auto]). } intros j J. apply in_app_or in J. destruct J as [J|[<-|[]]]; auto. }
        rewrite app_length in H; cbn in H; lia. }
      rewrite aset_some by lia. cbn [obind]. unfold set_vtag; cbn [vlid obind]. rewrite aset_some by lia. cbn [obind].
      eexists _, [k]. split; [reflexivity|]. split; [|split; [auto|split]].
      * constructor; cbn [b_queue b_qsize b_vis].
        -- intros i x H. rewrite Is. destruct (Nat.eq_dec (length Q) i) as [<-|N].
           ++ rewrite aget_upd_eq by lia. rewrite nth_error_app2, Nat.sub_diag in H by lia. cbn in H. congruence.
           ++ rewrite aget_upd_neq by auto. apply Iq. destruct (Nat.lt_ge_cases i (length Q)); [now rewrite nth_error_app1 in H|].
              assert (i < length (Q ++ [k])) by (apply nth_error_Some; congruence). rewrite app_length in H1; cbn in H1; lia.
        -- now rewrite upd_length.
        -- rewrite app_length; cbn; lia.
        -- apply (Permutation_NoDup (l := k :: Q)); [apply Permutation_cons_append|constructor; auto].
        -- intros j J. apply in_app_or in J. destruct J as [J|[<-|[]]]; auto.
        -- split; [now rewrite upd_length|]. intros j J. destruct (Nat.eq_dec k j) as [<-|N]; [right; apply aget_upd_eq; lia|]. rewrite aget_upd_neq by auto. auto.
        -- intros j J. unfold marked. destruct (Nat.eq_dec k j) as [<-|N].
           ++ rewrite aget_upd_eq by lia. split; [intros _; right; apply in_or_app; right; left; reflexivity|reflexivity].
           ++ rewrite aget_upd_neq by auto. rewrite (Iv j J). rewrite in_app_iff. cbn [In]. tauto.
      * intros _. unfold marked. cbn [b_vis]. apply aget_upd_eq; lia.
      * intros j J M. unfold marked in *. cbn [b_vis]. destruct (Nat.eq_dec k j) as [<-|N]; [apply aget_upd_eq; lia|]. now rewrite aget_upd_neq.
    + cbn [Z.eqb]. exists s, []. rewrite app_nil_r. split; [reflexivity|]. split; [constructor; auto; split; auto|]. auto.
  - destruct (Z.eqb_spec o (self g)); [contradiction|]. cbn [negb]. exists s, []. rewrite app_nil_r. split; [reflexivity|]. split; [auto|]. split; [auto|]. split; [lia|auto].
Qed.

Lemma others_step V0 hs : forall Q s, inv V0 Q s ->
  (forall h, In h hs -> exists k, h = S k /\ ((k < n /\ owner g h = Some (self g)) \/ (n <= k /\ exists o, owner g h = Some o /\ o <> self g))) ->
  exists s' X, foldM (bfs_other g) hs s = Some s' /\ inv V0 (Q ++ X) s' /\ (forall k, In k X -> k < n /\ In (S k) hs) /\
    (forall k, k < n -> In (S k) hs -> marked (b_vis s') k) /\ (forall j, j < n -> marked (b_vis s) j -> marked (b_vis s') j).
Proof.
  induction hs as [|h hs IH]; intros Q s I H.
  - exists s, []. rewrite app_nil_r. split; [reflexivity|]. split; [auto|]. split; [intros ? []|split; [intros ? _ []|auto]].
  - destruct (H h (or_introl eq_refl)) as [k [Eh D]]. destruct (other_step V0 Q s h k I Eh D) as [s1 [X [E1 [I1 [DX [M1 P1]]]]]].
    destruct (IH _ _ I1) as [s2 [Y [E2 [I2 [DY [M2 P2]]]]]]; [intros; apply H; right; auto|].
    exists s2, (X ++ Y). rewrite app_assoc. cbn [foldM]. rewrite E1. cbn [obind]. split; [exact E2|]. split; [exact I2|]. split; [|split].
    + intros j J. apply in_app_or in J. destruct J as [J|J].
      * destruct DX as [->|[-> L]]; [destruct J|]. destruct J as [<-|[]]. split; auto. left; auto.
      * destruct (DY _ J). split; auto. right; auto.
    + intros j J [A|A]; [|auto]. apply P2; auto. subst h. inversion A; subst j. auto.
    + auto.
Qed.

(** processed prefix: all local neighbours of the first i queue entries are marked *)
Lemma loop_ok V0 fuel : forall i Q s, inv V0 Q s -> i <= length Q -> n < fuel + i ->
  (forall j k m, j < i -> nth_error Q j = Some k -> m < n -> nbr k m -> marked (b_vis s) m) ->
  exists s' X, bfs_loop g afuel fuel i s = Some s' /\ inv V0 (Q ++ X) s' /\
    (forall k m, In k (Q ++ X) -> m < n -> nbr k m -> marked (b_vis s') m) /\
    (forall P : nat -> Prop, (forall k, In k Q -> P k) -> (forall k m, P k -> k < n -> m < n -> nbr k m -> P m) -> forall k, In k (Q ++ X) -> P k).
Proof.
  induction fuel as [|f IH]; intros i Q s I Li F C.
  - exfalso. pose proof (bounded_nodup Q (iv_nd _ _ _ I) (iv_lt _ _ _ I)). lia.
  - cbn [bfs_loop]. rewrite (iv_size _ _ _ I). destruct (Nat.leb_spec (length Q) i) as [L|L].
    + exists s, []. rewrite app_nil_r. split; [reflexivity|]. split; [auto|]. split.
      * intros k m K M N. apply In_nth_error in K. destruct K as [j J]. apply (C j k m); auto. assert (j < length Q) by (apply nth_error_Some; congruence). lia.
      * intros P HP _ k K. auto.
    + destruct (nth_error Q i) as [k|] eqn:EQ; [|apply nth_error_None in EQ; lia].
      rewrite (iv_q _ _ _ I _ _ EQ). cbn [obind].
      assert (Lk : k < n) by (apply (iv_lt _ _ _ I); eapply nth_error_In; eauto).
      destruct (Hadj k Lk) as [hs [Ea [Hh Hb]]]. rewrite Ea. cbn [obind].
      destruct (others_step V0 hs Q s I Hh) as [s1 [X [E1 [I1 [DX [M1 P1]]]]]]. rewrite E1. cbn [obind].
      destruct (IH (i + 1) (Q ++ X) s1 I1) as [s2 [Y [E2 [I2 [C2 R2]]]]].
      { rewrite app_length; lia. } { lia. }
      { intros j k' m J EJ M N. destruct (Nat.eq_dec j i) as [->|Nj].
        - rewrite nth_error_app1 in EJ by lia. rewrite EQ in EJ. inversion EJ; subst k'. apply M1; auto. now apply Hb.
        - rewrite nth_error_app1 in EJ by lia. apply P1; auto. apply (C j k' m); auto; lia. }
      exists s2, (X ++ Y). rewrite app_assoc. split; [exact E2|]. split; [exact I2|]. split; [exact C2|].
      intros P HP HS k' K'. apply (R2 P); auto. intros j J. apply in_app_or in J. destruct J as [J|J]; auto.
      destruct (DX _ J) as [Lj Hj]. apply (HS k j); auto; [|now apply Hb]. apply HP. eapply nth_error_In; eauto.
Qed.

Hypothesis sym : forall k m, k < n -> m < n -> nbr k m -> nbr m k.
Definition lconn := clos_refl_sym_trans nat (fun a b => a < n /\ b < n /\ nbr a b).

Lemma lconn_lt a b : lconn a b -> (a < n <-> b < n).
Proof. induction 1 as [a b [? [? ?]]| | |]; tauto. Qed.
Lemma closed_lconn (V : nat -> Prop) : (forall k m, V k -> k < n -> m < n -> nbr k m -> V m) -> forall a b, lconn a b -> (V a <-> V b).
Proof. intros C a b. induction 1 as [a b [A [B N]]| | |]; try tauto. split; intros V1; [apply (C a b)|apply (C b a)]; auto. Qed.

Lemma bfs_ok fuel v (V0 : nat -> Prop) tag : afuel = fuel -> n < fuel -> v < n -> tag_ok tag -> (forall k, k < n -> (marked tag k <-> V0 k)) -> ~ V0 v ->
  (forall k m, V0 k -> k < n -> m < n -> nbr k m -> V0 m) ->
  exists tag', bfs g fuel (S v) tag = Some tag' /\ tag_ok tag' /\ forall k, k < n -> (marked tag' k <-> V0 k \/ lconn v k).
Proof.
  intros AF F L [Tl T] HV NV CV. unfold bfs. rewrite Hn.
  rewrite aset_some by (unfold anew; rewrite repeat_length; lia). cbn [obind]. unfold set_vtag. cbn [vlid obind]. rewrite aset_some by lia. cbn [obind].
  assert (I0 : inv V0 [v] (mkBst (upd (anew n) 0 (Some (S v))) 1 (upd tag v (Some 1%Z)))).
  { constructor; cbn [b_queue b_qsize b_vis].
    - intros [|i] k H; [|destruct i; discriminate]. inversion H; subst. apply aget_upd_eq. unfold anew; rewrite repeat_length; lia.
    - rewrite upd_length. unfold anew; apply repeat_length.
    - reflexivity.
    - repeat constructor; intros [].
    - intros k [<-|[]]; auto.
    - split; [now rewrite upd_length|]. intros k K. destruct (Nat.eq_dec v k) as [<-|N]; [right; apply aget_upd_eq; lia|]. rewrite aget_upd_neq by auto; auto.
    - intros k K. unfold marked. destruct (Nat.eq_dec v k) as [<-|N]; [rewrite aget_upd_eq by lia; cbn; tauto|]. rewrite aget_upd_neq by auto. rewrite <- (HV k K). unfold marked. cbn [In]. tauto. }
  rewrite <- AF in *. destruct (loop_ok V0 afuel 0 [v] _ I0) as [s [X [E [I [C R]]]]]; [cbn; lia|lia|intros; lia|]. rewrite E. cbn [obind].
  exists (b_vis s). split; [reflexivity|]. split; [apply I|]. intros k K. rewrite (iv_vis _ _ _ I k K).
  assert (RC : forall k, In k ([v] ++ X) -> lconn v k).
  { intros k' K'. apply (R (fun k => lconn v k)); auto; [intros j [<-|[]]; apply rst_refl|].
    intros a b A La Lb N. eapply rst_trans; [exact A|]. apply rst_step; auto. }
  split; (intros [A|A]; [left; exact A|]); [right; auto|].
  assert (Cl : forall a b, In a ([v] ++ X) -> a < n -> b < n -> nbr a b -> In b ([v] ++ X)).
  { intros a b Ha La Lb N. pose proof (C a b Ha Lb N) as M. apply (iv_vis _ _ _ I b Lb) in M. destruct M as [M|M]; auto.
    exfalso. apply NV. apply (closed_lconn V0 CV v b); auto. eapply rst_trans; [apply RC; exact Ha|]. apply rst_step; auto. }
  right. apply (closed_lconn (fun k => In k ([v] ++ X)) Cl v k A). left; reflexivity.
Qed.

(** the outer loop *)
Lemma outer_ok fuel : afuel = fuel -> n < fuel -> forall m vs, vs = seq m (n - m) -> m <= n -> forall reps tag, tag_ok tag ->
  (forall r, In r reps -> r < n) -> (forall k, k < n -> (marked tag k <-> exists r, In r reps /\ lconn r k)) -> (forall k, k < m -> marked tag k) ->
  (forall i j r r', nth_error reps i = Some r -> nth_error reps j = Some r' -> lconn r r' -> i = j) ->
  exists reps' tag', foldM (fun '(dis, tag) v => x <- get_vtag g tag v ;;
      if Z.eqb x 0 then tag' <- bfs g fuel v tag ;; Some ((dis + 1)%Z, tag') else Some (dis, tag)) (map S vs) (Z.of_nat (length reps), tag) = Some (Z.of_nat (length reps'), tag') /\
    (forall r, In r reps' -> r < n) /\ (forall k, k < n -> exists r, In r reps' /\ lconn r k) /\
    (forall i j r r', nth_error reps' i = Some r -> nth_error reps' j = Some r' -> lconn r r' -> i = j).
Proof.
  intros AF F. assert (G : forall d m vs, d = n - m -> vs = seq m d -> m <= n -> forall reps tag, tag_ok tag ->
  (forall r, In r reps -> r < n) -> (forall k, k < n -> (marked tag k <-> exists r, In r reps /\ lconn r k)) -> (forall k, k < m -> marked tag k) ->
  (forall i j r r', nth_error reps i = Some r -> nth_error reps j = Some r' -> lconn r r' -> i = j) ->
  exists reps' tag', foldM (fun '(dis, tag) v => x <- get_vtag g tag v ;;
      if Z.eqb x 0 then tag' <- bfs g fuel v tag ;; Some ((dis + 1)%Z, tag') else Some (dis, tag)) (map S vs) (Z.of_nat (length reps), tag) = Some (Z.of_nat (length reps'), tag') /\
    (forall r, In r reps' -> r < n) /\ (forall k, k < n -> exists r, In r reps' /\ lconn r k) /\
    (forall i j r r', nth_error reps' i = Some r -> nth_error reps' j = Some r' -> lconn r r' -> i = j)).
  { induction d as [|d IH]; intros m vs D -> Lm reps tag TO RL RM Mm RU.
    - cbn. exists reps, tag. split; [reflexivity|]. split; auto. split; auto. intros k K. apply RM; auto. apply Mm; lia.
    - cbn [seq map foldM obind]. unfold get_vtag at 1. cbn [vlid obind]. rewrite Hn. destruct (Nat.leb_spec n m) as [X|_]; [lia|].
      assert (Lmn : m < n) by lia. destruct TO as [Tl T].
      destruct (T m Lmn) as [E|E]; rewrite E; cbn [obind Z.eqb].
      + destruct (bfs_ok fuel m (fun k => exists r, In r reps /\ lconn r k) tag AF F Lmn (conj Tl T) RM) as [tag' [EB [TO' M']]].
        { intros [r [R1 R2]]. assert (marked tag m) by (apply RM; eauto). unfold marked in H; congruence. }
        { intros k j [r [R1 R2]] Lk Lj N. exists r. split; auto. eapply rst_trans; [exact R2|]. apply rst_step; auto. }
        rewrite EB. cbn [obind].
        destruct (IH (S m) (seq (S m) d)) with (reps := reps ++ [m]) (tag := tag') as [reps' [tag'' [E2 [A [B C]]]]]; auto; try lia.
        * intros r R. apply in_app_or in R. destruct R as [R|[<-|[]]]; auto.
        * intros k K. rewrite (M' k K). split.
          -- intros [[r [R1 R2]]|R]; [exists r|exists m]; (split; [apply in_or_app; cbn; auto|auto]).
          -- intros [r [R1 R2]]. apply in_app_or in R1. destruct R1 as [R1|[<-|[]]]; [left; eauto|auto].
        * intros k K. destruct (Nat.eq_dec k m) as [->|Nk]; [apply M'; auto; right; apply rst_refl|]. apply M'; [lia|]. left. apply RM; [lia|]. apply Mm; lia.
        * assert (NM : forall r, In r reps -> ~ lconn r m). { intros r R1 R2. assert (marked tag m) by (apply RM; eauto). unfold marked in H; congruence. }
          intros i j r r' Hi Hj Hr.
          assert (Li : i < length (reps ++ [m])) by (apply nth_error_Some; congruence). assert (Lj : j < length (reps ++ [m])) by (apply nth_error_Some; congruence).
          rewrite app_length in Li, Lj; cbn in Li, Lj.
          destruct (Nat.eq_dec i (length reps)) as [->|Ni]; destruct (Nat.eq_dec j (length reps)) as [->|Nj]; auto.
          -- rewrite nth_error_app2, Nat.sub_diag in Hi by lia. rewrite nth_error_app1 in Hj by lia. inversion Hi; subst r. exfalso. apply (NM r'); [eapply nth_error_In; eauto|]. now apply rst_sym.
          -- rewrite nth_error_app2, Nat.sub_diag in Hj by lia. rewrite nth_error_app1 in Hi by lia. inversion Hj; subst r'. exfalso. apply (NM r); [eapply nth_error_In; eauto|]. auto.
          -- rewrite nth_error_app1 in Hi, Hj by lia. eauto.
        * exists reps', tag''. split; [|auto]. rewrite app_length in E2. cbn [length] in E2. replace (Z.of_nat (length reps) + 1)%Z with (Z.of_nat (length reps + 1)) by lia. exact E2.
      + apply (IH (S m)); auto; try lia; [split; auto|]. intros k K. destruct (Nat.eq_dec k m) as [->|]; [exact E|apply Mm; lia]. }
  intros m vs -> Lm. apply (G (n - m) m); auto.
Qed.

Lemma zeros_ok : exists tag0, foldM (fun a v => set_vtag a v 0%Z) (map S (seq 0 n)) (anew n) = Some tag0 /\ tag_ok tag0 /\ forall k, k < n -> aget tag0 k = Some 0%Z.
Proof.
  assert (G : forall d m tag, m + d = n -> length tag = n -> (forall k, k < m -> aget tag k = Some 0%Z) ->
    exists tag0, foldM (fun a v => set_vtag a v 0%Z) (map S (seq m d)) tag = Some tag0 /\ length tag0 = n /\ forall k, k < n -> aget tag0 k = Some 0%Z).
  { induction d as [|d IH]; intros m tag M L H.
    - exists tag. split; [reflexivity|]. split; auto. intros; apply H; lia.
    - cbn [seq map foldM]. unfold set_vtag at 1. cbn [vlid obind]. rewrite aset_some by lia. cbn [obind]. apply IH; [lia|now rewrite upd_length|].
      intros k K. destruct (Nat.eq_dec m k) as [<-|]; [apply aget_upd_eq; lia|]. rewrite aget_upd_neq by auto. apply H; lia. }
  destruct (G n 0 (anew n)) as [tag0 [E [L H]]]; auto; [unfold anew; apply repeat_length|intros; lia|]. exists tag0. split; auto. split; [split; auto|auto].
Qed.

Lemma count_ok fuel : afuel = fuel -> n < fuel -> all_verts g fuel = Some (map S (seq 0 n)) ->
  exists reps, countDisconnected g fuel = Some (Z.of_nat (length reps) - 1)%Z /\ (forall r, In r reps -> r < n) /\ (forall k, k < n -> exists r, In r reps /\ lconn r k) /\
    (forall i j r r', nth_error reps i = Some r -> nth_error reps j = Some r' -> lconn r r' -> i = j).
Proof.
  intros AF F EV. unfold countDisconnected, create_tag. cbn [obind]. rewrite EV, Hn. cbn [obind].
  destruct zeros_ok as [tag0 [E0 [T0 Z0]]]. rewrite E0. cbn [obind].
  destruct (outer_ok fuel AF F 0 (seq 0 n)) with (reps := @nil nat) (tag := tag0) as [reps [tag' [E [A [B C]]]]]; auto; try lia.
  - f_equal; lia.
  - intros r [].
  - intros k K. unfold marked. rewrite (Z0 k K). split; [discriminate|intros [r [[] _]]].
  - intros [|i] j r r'; discriminate.
  - cbn [length Z.of_nat] in E. rewrite E. cbn [obind]. exists reps. auto.
Qed.
End Search.

(** Both modes at once: the classes of the symmetric neighbour relation, translated to global ids. *)
Lemma count_classes me hg verts vws tys owns g es ws fuel (nb : Z -> list Z) :
  valid_input hg verts vws tys -> build_part me hg verts vws tys owns = Some g -> nth_error tys 0 = Some (es, ws) ->
  (forall v, In v (ghosts_of verts tys) -> part_of me verts owns v <> me) -> length verts < fuel ->
  (forall l v, nth_error verts l = Some v -> exists hs, adjacent g (getVertex l) 0 fuel = Some hs /\ mapM (vgid g) hs = Some (nb v)) ->
  (forall a b, In a verts -> In b verts -> (In b (nb a) <-> joined verts es a b)) ->
  exists k, classes verts (linked verts es) k /\ countDisconnected g fuel = Some (Z.of_nat k - 1)%Z.
Proof.
  intros HV HB H0 HG HF HA HJ.
  assert (HC : constructed me hg verts vws tys g) by (split; [exact HV|right; eauto]).
  assert (HR := proj1 (part_rep _ _ _ _ _ _ _ HV HB)).
  set (n := length verts).
  set (nbr := fun l k => exists a b, nth_error verts l = Some a /\ nth_error verts k = Some b /\ joined verts es a b).
  assert (AV : all_verts g fuel = Some (map S (seq 0 n))) by (apply (all_verts_ok _ _ _ _ _ HR); auto).
  destruct (count_ok g n fuel nbr) with (fuel := fuel) as [reps [E [A [B C]]]]; auto.
  - apply (c_counts _ _ _ _ _ _ HC).
  - intros l Ll. destruct (nth_error verts l) as [v|] eqn:El; [|apply nth_error_None in El; unfold n in Ll; lia].
    destruct (HA l v El) as [hs [E1 E2]]. exists hs. replace (S l) with (getVertex l) by (unfold getVertex; lia). split; [exact E1|]. split.
    + intros h Hh. destruct (mapM_each _ _ _ h E2 Hh) as [w Ew]. destruct (vgid_inv _ _ _ _ _ _ HC h w Ew) as [k [-> Hk]].
      exists k. split; [unfold getVertex; lia|]. pose proof (p_owner me hg verts vws tys owns g HV HB k w Hk) as PO. destruct (Nat.lt_ge_cases k n) as [L|L].
      * left. split; auto. rewrite PO, (p_self me hg verts vws tys owns g HV HB). f_equal. unfold part_of. destruct (in_dec Z.eq_dec w verts) as [_|NI]; auto.
        exfalso. apply NI. rewrite nth_error_app1 in Hk by exact L. eapply nth_error_In; eauto.
      * right. split; auto. eexists. split; [exact PO|]. rewrite (p_self me hg verts vws tys owns g HV HB). apply HG. rewrite nth_error_app2 in Hk by exact L. eapply nth_error_In; eauto.
    + intros k Lk. destruct (nth_error verts k) as [w|] eqn:Ek; [|apply nth_error_None in Ek; unfold n in Lk; lia].
      assert (Ek' : nth_error (verts ++ ghosts_of verts tys) k = Some w) by (rewrite nth_error_app1; auto).
      pose proof (c_vgid _ _ _ _ _ _ HC k w Ek') as EV. replace (S k) with (getVertex k) by (unfold getVertex; lia).
      assert (IFF : In (getVertex k) hs <-> In w (nb v)).
      { rewrite (mapM_in_iff _ _ _ w E2). split; [intros X; exists (getVertex k); auto|]. intros [h [Hh Eh]]. now rewrite (vgid_inj _ _ _ _ _ _ HC (getVertex k) h w EV Eh). }
      rewrite IFF, HJ; [|eapply nth_error_In; eauto|eapply nth_error_In; eauto]. unfold nbr. split; [eauto|]. intros [a [b [Ea [Eb J]]]]. congruence.
  - intros k m Lk Lm [a [b [Ea [Eb [J1 [J2 [e [J3 [J4 J5]]]]]]]]]. exists b, a. split; auto. split; auto. split; auto. split; auto. exists e; auto.
  - exists (length reps). split; [|exact E].
    assert (UP : forall a b, lconn n nbr a b -> forall x, nth_error verts a = Some x -> exists y, nth_error verts b = Some y /\ linked verts es x y).
    { assert (UP2 : forall a b, lconn n nbr a b -> (forall x, nth_error verts a = Some x -> exists y, nth_error verts b = Some y /\ linked verts es x y) /\ (forall y, nth_error verts b = Some y -> exists x, nth_error verts a = Some x /\ linked verts es x y)).
      { intros a b H. induction H as [a b [La [Lb [x [y [Ex [Ey J]]]]]]|a|a b H [IH1 IH2]|a b c H1 [A1 A2] H2 [B1 B2]].
        - split; [intros x' X; exists y|intros y' Y; exists x]; (split; [auto|]); apply rst_step; congruence.
        - split; intros x X; exists x; split; auto; apply rst_refl.
        - split; [intros x X; destruct (IH2 _ X) as [y [Y L]]|intros x X; destruct (IH1 _ X) as [y [Y L]]]; exists y; split; auto; now apply rst_sym.
        - split; [intros x X; destruct (A1 _ X) as [y [Y L]]; destruct (B1 _ Y) as [z [Z M]]|intros z Z; destruct (B2 _ Z) as [y [Y L]]; destruct (A2 _ Y) as [x [X M]]]; eexists; (split; [eauto|]); eapply rst_trans; eauto. }
      intros a b H; apply (UP2 a b H). }
    assert (DN : forall x y, linked verts es x y -> forall a b, nth_error verts a = Some x -> nth_error verts b = Some y -> lconn n nbr a b).
    { assert (ND : NoDup verts) by apply HV.
      assert (DN2 : forall x y, linked verts es x y -> (In x verts <-> In y verts) /\ forall a b, nth_error verts a = Some x -> nth_error verts b = Some y -> lconn n nbr a b).
      { intros x y H. induction H as [x y J|x|x y H [I1 I2]|x y z H1 [I1 A1] H2 [I2 A2]].
        - split; [destruct J as [J1 [J2 _]]; tauto|]. intros a b Ea Eb. apply rst_step. split; [apply nth_error_Some; congruence|]. split; [apply nth_error_Some; congruence|]. exists x, y; auto.
        - split; [tauto|]. intros a b Ea Eb. rewrite (NoDup_nth_error_inj _ verts a b x ND Ea Eb). apply rst_refl.
        - split; [tauto|]. intros a b Ea Eb. apply rst_sym. exact (I2 _ _ Eb Ea).
        - split; [tauto|]. intros a c Ea Ec. assert (Iy : In y verts) by (apply I1; eapply nth_error_In; eauto). apply In_nth_error in Iy. destruct Iy as [b Eb]. eapply rst_trans; [exact (A1 _ _ Ea Eb)|exact (A2 _ _ Eb Ec)]. }
      intros x y H; apply (DN2 x y H). }
    exists (map (fun r => nth r verts 0%Z) reps). rewrite map_length. split; [reflexivity|].
    assert (NT : forall r, r < n -> nth_error verts r = Some (nth r verts 0%Z)) by (intros r R; apply nth_error_nth'; exact R).
    split; [|split].
    + intros v Hv. apply in_map_iff in Hv. destruct Hv as [r [<- R]]. eapply nth_error_In. apply NT. auto.
    + intros v Hv. apply In_nth_error in Hv. destruct Hv as [k K]. assert (Lk : k < n) by (apply nth_error_Some; congruence).
      destruct (B k Lk) as [r [R1 R2]]. exists (nth r verts 0%Z). split; [apply in_map_iff; eauto|].
      destruct (UP _ _ R2 _ (NT r (A r R1))) as [y [Y L]]. congruence.
    + intros i j r r' Hi Hj HL. rewrite nth_error_map in Hi, Hj. destruct (nth_error reps i) as [a|] eqn:Ea; [|discriminate]. destruct (nth_error reps j) as [b|] eqn:Eb; [|discriminate].
      cbn in Hi, Hj. inversion Hi; inversion Hj; subst r r'. apply (C i j a b); auto. apply (DN _ _ HL); apply NT; apply A; eapply nth_error_In; eauto.
Qed.

Lemma in_neighbours_hyper v w es : In w (flat_map (fun i => match nth_error es i with Some e => snd e | None => [] end) (incident v es)) <-> exists e, In e es /\ In v (snd (e : edge_input)) /\ In w (snd e).
Proof.
  rewrite in_flat_map. split.
  - intros [i [I W]]. apply incident_in in I. destruct I as [e [E V]]. cbv beta in W. destruct (nth_error es i) as [e'|] eqn:E'; [|destruct W]. assert (e = e') by (unfold edge_input in *; congruence). subst e'. exists e. split; [eapply nth_error_In; eauto|auto].
  - intros [e [E [V W]]]. apply In_nth_error in E. destruct E as [i E]. exists i. split; [apply incident_in; eauto|]. change (edge_input) with (Z * list Z)%type in E. rewrite E. exact W.
Qed.

(** Hypergraph: countDisconnected is the number of connected components of the part minus one.  Hypotheses: the part was built through
    the API, it has a first edge type, no ghost is declared to be owned by the part itself; the fuel only bounds the loops. *)
Theorem C36_components_hypergraph me verts vws tys owns g es ws :
  valid_input true verts vws tys -> build_part me true verts vws tys owns = Some g -> nth_error tys 0 = Some (es, ws) ->
  (forall v, In v (ghosts_of verts tys) -> part_of me verts owns v <> me) ->
  exists k N, classes verts (linked verts es) k /\ forall fuel, N <= fuel -> countDisconnected g fuel = Some (Z.of_nat k - 1)%Z.
Proof.
  intros HV HB H0 HG.
  assert (HC : constructed me true verts vws tys g) by (split; [exact HV|right; eauto]).
  set (nb := fun v => flat_map (fun i => match nth_error es i with Some e => snd e | None => [] end) (incident v es)).
  assert (BD : exists N, forall v, In v verts -> length (nb v) < N).
  { generalize verts. induction verts0 as [|v r [N IH]]; [exists 0; intros v []|]. exists (S (length (nb v)) + N). intros w [<-|W]; [lia|]. specialize (IH _ W). lia. }
  destruct BD as [N HN].
  assert (ALL : forall fuel, N + S (length verts) <= fuel -> exists k, classes verts (linked verts es) k /\ countDisconnected g fuel = Some (Z.of_nat k - 1)%Z).
  { intros fuel HF. apply (count_classes me true verts vws tys owns g es ws fuel nb HV HB H0 HG); [lia| |].
    - intros l v El. apply (C12_neighbours_hypergraph me verts vws tys g 0 es ws l v fuel HC H0 El). fold (nb v). assert (length (nb v) < N) by (apply HN; eapply nth_error_In; eauto). lia.
    - intros a b Ia Ib. unfold nb. rewrite in_neighbours_hyper. unfold joined. tauto. }
  destruct (ALL _ (le_n _)) as [k [K E]]. exists k, (N + S (length verts)). split; [exact K|]. intros fuel HF.
  destruct (ALL fuel HF) as [k' [K' E']]. rewrite E'. f_equal.
  assert (forall k k', classes verts (linked verts es) k -> classes verts (linked verts es) k' -> k <= k').
  { clear. intros k k' [r1 [<- [I1 [C1 U1]]]] [r2 [<- [I2 [C2 U2]]]].
    (* each representative of the first list is linked to one of the second, injectively *)
    assert (F : exists f, length f = length r1 /\ forall i x, nth_error f i = Some x -> x < length r2 /\ exists a b, nth_error r1 i = Some a /\ nth_error r2 x = Some b /\ linked verts es b a).
    { assert (G : forall l, incl l r1 -> exists f, length f = length l /\ forall i x, nth_error f i = Some x -> x < length r2 /\ exists a b, nth_error l i = Some a /\ nth_error r2 x = Some b /\ linked verts es b a).
      { induction l as [|a l IH]; intros IL; [exists []; split; auto; intros [|i] x; discriminate|].
        destruct IH as [f [Lf Hf]]; [intros x X; apply IL; right; auto|]. destruct (C2 a) as [b [Hb Lb]]; [apply I1, IL; left; auto|].
        apply In_nth_error in Hb. destruct Hb as [x Ex]. exists (x :: f). split; [cbn; lia|]. intros [|i] y Y; [|apply Hf in Y; exact Y].
        inversion Y; subst y. split; [apply nth_error_Some; congruence|]. exists a, b; auto. }
      apply G; apply incl_refl. }
    destruct F as [f [Lf Hf]]. rewrite <- Lf. rewrite <- (seq_length (length r2) 0). apply NoDup_incl_length.
    - apply NoDup_nth_error. intros i j Li Eij. destruct (nth_error f i) as [x|] eqn:Ei; [|apply nth_error_None in Ei; lia]. symmetry in Eij.
      destruct (Hf _ _ Ei) as [_ [a [b [A1 [A2 A3]]]]]. destruct (Hf _ _ Eij) as [_ [a' [b' [B1 [B2 B3]]]]]. assert (b = b') by congruence. subst b'.
      apply (U1 i j a a'); auto. eapply rst_trans; [apply rst_sym; exact A3|exact B3].
    - intros x X. apply In_nth_error in X. destruct X as [i X]. destruct (Hf _ _ X) as [Lx _]. apply in_seq; lia. }
  assert (k = k') by (apply Nat.le_antisymm; eauto). subst; reflexivity.
Qed.
Print Assumptions C36_components_hypergraph.

Lemma in_out_dests v w es : In w (out_dests v es) <-> exists e, In e es /\ exists r, snd (e : edge_input) = v :: w :: r.
Proof.
  unfold out_dests. rewrite in_flat_map. split.
  - intros [e [E W]]. exists e. split; auto. destruct (snd e) as [|u [|x r]]; try destruct W. destruct (Z.eqb_spec u v); [|destruct W]. destruct W as [<-|[]]. subst; eauto.
  - intros [e [E [r S]]]. exists e. split; auto. rewrite S, Z.eqb_refl. left; reflexivity.
Qed.

(** Traditional graph: only out-edges are followed, so the count is right when every edge between two vertices of the part is also
    given in the other direction (and every vertex without self loop is only compared to others). *)
Theorem C36_components_traditional_partial me verts vws tys owns g es ws fuel :
  valid_input false verts vws tys -> build_part me false verts vws tys owns = Some g -> nth_error tys 0 = Some (es, ws) ->
  (forall v, In v (ghosts_of verts tys) -> part_of me verts owns v <> me) ->
  (forall a b, In a verts -> In b verts -> In [a; b] (pins_of es) -> In [b; a] (pins_of es)) ->
  length verts < fuel -> (forall v, In v verts -> length (out_dests v es) < fuel) ->
  exists k, classes verts (linked verts es) k /\ countDisconnected g fuel = Some (Z.of_nat k - 1)%Z.
Proof.
  intros HV HB H0 HG HS HF HD.
  assert (HC : constructed me false verts vws tys g) by (split; [exact HV|right; eauto]).
  assert (HA : forall l v, nth_error verts l = Some v -> exists hs, adjacent g (getVertex l) 0 fuel = Some hs /\ mapM (vgid g) hs = Some (out_dests v es)).
  { intros l v El. apply (C12_neighbours_traditional me verts vws tys g 0 es ws l v fuel HC H0 El). apply HD. eapply nth_error_In; eauto. }
  assert (T2 : forall e, In e es -> length (snd e) = 2). { apply (proj2 (proj2 (proj2 HV)) es ws); auto. eapply nth_error_In; eauto. }
  (* joined also relates a vertex with an edge to itself; count with the relation without the diagonal and add it back *)
  assert (IFF : forall a b, In a verts -> In b verts -> a <> b -> (In b (out_dests a es) <-> joined verts es a b)).
  { intros a b Ia Ib NE. rewrite in_out_dests. split.
    - intros [e [E [r S]]]. split; auto. split; auto. exists e. rewrite S. cbn; auto.
    - intros [_ [_ [e [E [X Y]]]]]. pose proof (T2 e E) as L. destruct e as [id ps]. cbn [snd] in *. destruct ps as [|x [|y [|z r]]]; try discriminate L.
      assert (P : In [x; y] (pins_of es)) by (unfold pins_of; apply in_map_iff; exists (id, [x; y]); auto).
      cbn in X, Y. assert (D : (x = a /\ y = b) \/ (x = b /\ y = a)). { destruct X as [->|[->|[]]]; destruct Y as [->|[->|[]]]; auto; contradiction. }
      assert (Q : In [a; b] (pins_of es)). { destruct D as [[-> ->]|[-> ->]]; auto. }
      unfold pins_of in Q. apply in_map_iff in Q. destruct Q as [e' [S' E']]. exists e'. split; auto. exists []. exact S'. }
  destruct (count_ok g (length verts) fuel (fun l k => exists a b, nth_error verts l = Some a /\ nth_error verts k = Some b /\ In b (out_dests a es))) with (fuel := fuel) as [reps [E [A [B C]]]]; auto.
  - apply (c_counts _ _ _ _ _ _ HC).
  - intros l Ll. destruct (nth_error verts l) as [v|] eqn:El; [|apply nth_error_None in El; lia].
    destruct (HA l v El) as [hs [E1 E2]]. exists hs. replace (S l) with (getVertex l) by (unfold getVertex; lia). split; [exact E1|].
    assert (HR := proj1 (part_rep _ _ _ _ _ _ _ HV HB)). split.
    + intros h Hh. destruct (mapM_each _ _ _ h E2 Hh) as [w Ew]. destruct (vgid_inv _ _ _ _ _ _ HC h w Ew) as [k [-> Hk]].
      exists k. split; [unfold getVertex; lia|]. pose proof (p_owner me false verts vws tys owns g HV HB k w Hk) as PO. destruct (Nat.lt_ge_cases k (length verts)) as [L|L].
      * left. split; auto. rewrite PO, (p_self me false verts vws tys owns g HV HB). f_equal. unfold part_of. destruct (in_dec Z.eq_dec w verts) as [_|NI]; auto.
        exfalso. apply NI. rewrite nth_error_app1 in Hk by exact L. eapply nth_error_In; eauto.
      * right. split; auto. eexists. split; [exact PO|]. rewrite (p_self me false verts vws tys owns g HV HB). apply HG. rewrite nth_error_app2 in Hk by exact L. eapply nth_error_In; eauto.
    + intros k Lk. destruct (nth_error verts k) as [w|] eqn:Ek; [|apply nth_error_None in Ek; lia].
      assert (Ek' : nth_error (verts ++ ghosts_of verts tys) k = Some w) by (rewrite nth_error_app1; auto).
      pose proof (c_vgid _ _ _ _ _ _ HC k w Ek') as EV. replace (S k) with (getVertex k) by (unfold getVertex; lia).
      assert (IFF2 : In (getVertex k) hs <-> In w (out_dests v es)).
      { rewrite (mapM_in_iff _ _ _ w E2). split; [intros X; exists (getVertex k); auto|]. intros [h [Hh Eh]]. now rewrite (vgid_inj _ _ _ _ _ _ HC (getVertex k) h w EV Eh). }
      rewrite IFF2. split; [eauto|]. intros [a [b [Ea [Eb J]]]]. congruence.
  - intros k m Lk Lm [a [b [Ea [Eb J]]]]. exists b, a. split; auto. split; auto.
    destruct (Z.eq_dec a b) as [->|NE]; auto. assert (Ia : In a verts) by (eapply nth_error_In; eauto). assert (Ib : In b verts) by (eapply nth_error_In; eauto).
    apply IFF; auto. apply IFF in J; auto. destruct J as [J1 [J2 [e [J3 [J4 J5]]]]]. split; auto. split; auto. exists e; auto.
  - apply (all_verts_ok _ _ _ _ _ (proj1 (part_rep _ _ _ _ _ _ _ HV HB))); auto.
  - exists (length reps). split; [|exact E].
    set (n := length verts) in *. set (nbr := fun l k => exists a b, nth_error verts l = Some a /\ nth_error verts k = Some b /\ In b (out_dests a es)) in *.
    assert (ND : NoDup verts) by apply HV.
    assert (UP2 : forall a b, lconn n nbr a b -> (forall x, nth_error verts a = Some x -> exists y, nth_error verts b = Some y /\ linked verts es x y) /\ (forall y, nth_error verts b = Some y -> exists x, nth_error verts a = Some x /\ linked verts es x y)).
    { assert (ST : forall x y, In x verts -> In y verts -> In y (out_dests x es) -> linked verts es x y).
      { intros x y X Y O. destruct (Z.eq_dec x y) as [->|NE]; [apply rst_refl|]. apply rst_step. now apply IFF. }
      intros a b H. induction H as [a b [La [Lb [x [y [Ex [Ey J]]]]]]|a|a b H [IH1 IH2]|a b c H1 [A1 A2] H2 [B1 B2]].
      - assert (linked verts es x y) by (apply ST; auto; eapply nth_error_In; eauto). split; [intros x' X; exists y|intros y' Y; exists x]; (split; [auto|]); congruence.
      - split; intros x X; exists x; split; auto; apply rst_refl.
      - split; [intros x X; destruct (IH2 _ X) as [y [Y L]]|intros x X; destruct (IH1 _ X) as [y [Y L]]]; exists y; split; auto; now apply rst_sym.
      - split; [intros x X; destruct (A1 _ X) as [y [Y L]]; destruct (B1 _ Y) as [z [Z M]]|intros z Z; destruct (B2 _ Z) as [y [Y L]]; destruct (A2 _ Y) as [x [X M]]]; eexists; (split; [eauto|]); eapply rst_trans; eauto. }
    assert (DN2 : forall x y, linked verts es x y -> (In x verts <-> In y verts) /\ forall a b, nth_error verts a = Some x -> nth_error verts b = Some y -> lconn n nbr a b).
    { intros x y H. induction H as [x y J|x|x y H [I1 I2]|x y z H1 [I1 A1] H2 [I2 A2]].
      - split; [destruct J as [J1 [J2 _]]; tauto|]. intros a b Ea Eb. destruct (Z.eq_dec x y) as [->|NE]; [rewrite (NoDup_nth_error_inj _ verts a b y ND Ea Eb); apply rst_refl|].
        apply rst_step. split; [apply nth_error_Some; congruence|]. split; [apply nth_error_Some; congruence|]. exists x, y; split; auto. split; auto. apply IFF; auto; eapply nth_error_In; eauto.
      - split; [tauto|]. intros a b Ea Eb. rewrite (NoDup_nth_error_inj _ verts a b x ND Ea Eb). apply rst_refl.
      - split; [tauto|]. intros a b Ea Eb. apply rst_sym. exact (I2 _ _ Eb Ea).
      - split; [tauto|]. intros a c Ea Ec. assert (Iy : In y verts) by (apply I1; eapply nth_error_In; eauto). apply In_nth_error in Iy. destruct Iy as [b Eb]. eapply rst_trans; [exact (A1 _ _ Ea Eb)|exact (A2 _ _ Eb Ec)]. }
    exists (map (fun r => nth r verts 0%Z) reps). rewrite map_length. split; [reflexivity|].
    assert (NT : forall r, r < n -> nth_error verts r = Some (nth r verts 0%Z)) by (intros r R; apply nth_error_nth'; exact R).
    split; [|split].
    + intros v Hv. apply in_map_iff in Hv. destruct Hv as [r [<- R]]. eapply nth_error_In. apply NT. auto.
    + intros v Hv. apply In_nth_error in Hv. destruct Hv as [k K]. assert (Lk : k < n) by (apply nth_error_Some; congruence).
      destruct (B k Lk) as [r [R1 R2]]. exists (nth r verts 0%Z). split; [apply in_map_iff; eauto|].
      destruct (proj1 (UP2 _ _ R2) _ (NT r (A r R1))) as [y [Y L]]. congruence.
    + intros i j r r' Hi Hj HL. rewrite nth_error_map in Hi, Hj. destruct (nth_error reps i) as [a|] eqn:Ea; [|discriminate]. destruct (nth_error reps j) as [b|] eqn:Eb; [|discriminate].
      cbn in Hi, Hj. inversion Hi; inversion Hj; subst r r'. apply (C i j a b); auto. apply (proj2 (DN2 _ _ HL)); apply NT; apply A; eapply nth_error_In; eauto.
Qed.
Print Assumptions C36_components_traditional_partial.

(** A single directed edge into the first vertex: one component, reported as one disconnected piece too many. *)
Theorem C36_directed_refuted : exists verts tys g, constructed 0 false verts [] tys g /\ build_part 0 false verts [] tys [] = Some g /\
  (exists es, nth_error tys 0 = Some (es, []) /\ classes verts (linked verts es) 1) /\ countDisconnected g 9 = Some 1%Z.
Proof.
  exists [1; 2]%Z, [([(0, [2; 1])], [])%Z]. eexists.
  assert (V : valid_input false [1; 2]%Z [] [([(0, [2; 1])], [])%Z]).
  { split; [repeat constructor; cbn; intuition congruence|]. split; [cbn; lia|]. split; [cbn; lia|].
    intros es ws [H|[]]; inversion H; subst; (split; [auto|]). intros _ e [<-|[]]; reflexivity. }
  split; [|split; [vm_compute; reflexivity|split; [|vm_compute; reflexivity]]].
  - split; [exact V|right; exists []; vm_compute; reflexivity].
  - eexists; split; [reflexivity|]. exists [1%Z]. split; [reflexivity|]. split; [intros v [<-|[]]; left; reflexivity|]. split.
    + intros v [<-|[<-|[]]]; exists 1%Z; (split; [left; reflexivity|]); [apply rst_refl|]. apply rst_step. split; [cbn; auto|]. split; [cbn; auto|]. eexists; split; [left; reflexivity|]. cbn; auto.
    + intros [|i] [|j] r r' Hi Hj _; auto; try (destruct i; discriminate); destruct j; discriminate.
Qed.
Print Assumptions C36_directed_refuted.

(** part 1 of the running example: 10-11 are joined, 12 is apart (it meets them only through the ghost 20) *)
Example C36_example : (g <- build_part 1 true ex_verts ex_vws ex_tys ex_owns ;; countDisconnected g 20) = Some 1%Z /\
  (forall v, In v (ghosts_of ex_verts ex_tys) -> part_of 1 ex_verts ex_owns v <> 1%Z).
Proof. split; [vm_compute; reflexivity|]. intros v [<-|[<-|[]]]; vm_compute; discriminate. Qed.
