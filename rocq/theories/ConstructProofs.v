(** Correctness of constructVerts / constructEdges: the arrays they build, in closed form. *)
From Verif Require Import Base GraphModel CsrProofs.

Lemma nsum_firstn_S (l : list nat) k d :
  nth_error l k = Some d -> nsum (firstn (S k) l) = nsum (firstn k l) + d.
Proof. revert k; induction l as [|a l IH]; intros [|k] H; cbn [firstn nsum fold_right] in *; simpl in H; try discriminate.
  - inversion H; simpl; lia.
  - fold (nsum (firstn (S k) l)). fold (nsum (firstn k l)). rewrite (IH k) by auto. lia. Qed.

Lemma nsum_firstn_le (l : list nat) k : nsum (firstn k l) <= nsum l.
Proof. rewrite <- (firstn_skipn k l) at 2. rewrite nsum_app. lia. Qed.

Lemma firstn_S_nth A (l : list A) k x : nth_error l k = Some x -> firstn (S k) l = firstn k l ++ [x].
Proof. revert k; induction l as [|a l IH]; intros [|k] H; simpl in *; try discriminate; auto.
  - inversion H; auto. - rewrite <- (IH k); auto. Qed.

(** local vertices counted by the first pass: even pin positions, or all of them in hypergraph mode *)
Fixpoint keysp (n : nat) (hg par : bool) (l : list nat) : list nat :=
  match l with
  | [] => []
  | u :: r => (if (par || hg) && (u <? n) then [u] else []) ++ keysp n hg (negb par) r
  end.
Lemma keysp_app n hg par l1 l2 :
  keysp n hg par (l1 ++ l2) = keysp n hg par l1 ++ keysp n hg (if Nat.even (length l1) then par else negb par) l2.
Proof. revert par; induction l1 as [|u l1 IH]; intros par; auto. cbn [app keysp length].
  rewrite IH, app_assoc. f_equal. f_equal. rewrite Nat.even_succ, <- Nat.negb_even.
  destruct (Nat.even (length l1)); simpl; auto. now rewrite negb_involutive. Qed.

Definition cntk (u : nat) (l : list nat) : nat := count_occ Nat.eq_dec l u.
Lemma cntk_app u l1 l2 : cntk u (l1 ++ l2) = cntk u l1 + cntk u l2.
Proof. apply count_occ_app. Qed.
Lemma cntk_fst A u (l : list (nat * A)) : cntk u (map fst l) = cnt_of u l.
Proof. unfold cntk, cnt_of, vals_of. rewrite map_length. induction l as [|[k x] l IH]; simpl; auto.
  destruct (Nat.eq_dec k u); destruct (Nat.eqb_spec k u); simpl; try congruence; auto. Qed.

Section Pass1.
Variables (hg : bool) (n : nat) (base : list Z) (ids : list Z) (pss : list (list Z)).
Let pv := concat pss.
Let lens := map (@length Z) pss.
Hypothesis Hnd : NoDup base.
Hypothesis Hn : n <= length base.
Hypothesis Hlen : length ids = length pss.

Definition QInv (j : nat) (q : pst) : Prop :=
  let pre := firstn j pv in
  let all := add_new base pre in
  MapInv (p_vm q) all /\
  p_ng q = length all - n /\
  p_pins q = ainit (map (idx all) pre) ++ anew (length pv - j) /\
  length (p_deg q) = n + 1 /\
  aget (p_deg q) 0 = Some 0 /\
  (forall u, u < n -> aget (p_deg q) (u + 1) = Some (cntk u (keysp n hg true (map (idx all) pre)))).

Lemma idx_map_ext base' ps more : incl ps (base' ++ []) ->
  map (idx (base' ++ more)) ps = map (idx base') ps.
Proof. intros H. apply map_ext_in. intros v Hv. apply idx_app. apply H in Hv. now rewrite app_nil_r in Hv. Qed.

Lemma pin1_step j q : QInv j q -> j < length pv ->
  exists q', pin1 hg n pv q j = Some q' /\ QInv (S j) q'.
Proof.
  intros (Hm & Hg & Hp & Hd & Hd0 & Hdu) Hj.
  destruct (nth_error pv j) as [v|] eqn:Hv; [|apply nth_error_None in Hv; lia].
  unfold pin1. rewrite Hv. cbn [obind].
  pose (pre := firstn j pv). pose (all := add_new base pre).
  fold pre in Hm, Hg, Hp, Hdu. fold all in Hm, Hg, Hp, Hdu.
  assert (Hpre : firstn (S j) pv = pre ++ [v]) by (now apply firstn_S_nth).
  assert (Hlp : length pre = j) by (unfold pre; rewrite firstn_length; lia).
  assert (Hnda : NoDup all) by (now apply add_new_NoDup).
  assert (Hincl : incl pre all) by (intros x Hx; now apply add_new_In).
  assert (Hall : add_new base (firstn (S j) pv) = add1 all v) by (rewrite Hpre, add_new_app; reflexivity).
  assert (Hna : n <= length all).
  { unfold all. destruct (add_new_ext base pre) as [m ->]. rewrite app_length; lia. }
  assert (Hlpins : length (p_pins q) = length pv).
  { rewrite Hp, app_length, ainit_length, map_length, anew_length. lia. }
  assert (Hpins' : forall k all', map (idx all') pre = map (idx all) pre -> idx all' v = k ->
     upd (p_pins q) j (Some k) = ainit (map (idx all') (pre ++ [v])) ++ anew (length pv - S j)).
  { intros k all' E1 E2. rewrite map_app, E1. cbn [map]. rewrite E2. rewrite Hp.
    replace j with (length (ainit (map (idx all) pre)) + 0) at 2 by (rewrite ainit_length, map_length; lia).
    rewrite upd_app_r. unfold ainit. rewrite map_app, <- app_assoc. f_equal.
    replace (length pv - j) with (S (length pv - S j)) by lia. reflexivity. }
  assert (Hkeys : forall k, keysp n hg true (map (idx all) pre ++ [k]) =
      keysp n hg true (map (idx all) pre) ++ (if (Nat.even j || hg) && (k <? n) then [k] else [])).
  { intros k. rewrite keysp_app, map_length, Hlp. cbn [keysp]. rewrite app_nil_r.
    destruct (Nat.even j); reflexivity. }
  destruct (memZ v all) eqn:Em.
  - (* known id *)
    assert (Hin : In v all) by (now apply memZ_In).
    assert (Hall' : add_new base (firstn (S j) pv) = all) by (rewrite Hall; unfold add1; now rewrite Em).
    rewrite (MapInv_find _ _ _ Hm Hin Hnda).
    set (l := idx all v) in *.
    specialize (Hpins' l all eq_refl eq_refl).
    destruct (Nat.ltb_spec l n) as [Hl|Hl].
    + assert (Hcount : forall b : bool, b = (Nat.even j || hg) ->
        exists d', (if b then d <- aget (p_deg q) (l + 1) ;; aset (p_deg q) (l + 1) (d + 1) else Some (p_deg q)) = Some d' /\
        length d' = n + 1 /\ aget d' 0 = Some 0 /\
        forall u, u < n -> aget d' (u + 1) = Some (cntk u (keysp n hg true (map (idx all) (pre ++ [v]))))).
      { intros b Hb. rewrite map_app. cbn [map]. fold l. rewrite Hkeys, <- Hb.
        destruct (Nat.ltb_spec l n) as [_|]; [|lia].
        destruct b; cbn [andb].
        - rewrite Hdu by auto. cbn [obind]. rewrite aset_some by lia. eexists; split; [reflexivity|].
          rewrite upd_length. repeat split; auto.
          + rewrite aget_upd_neq by lia. auto.
          + intros u Hu. rewrite cntk_app. destruct (Nat.eq_dec l u) as [<-|N].
            * rewrite aget_upd_eq by lia. f_equal. unfold cntk at 3. simpl.
              destruct (Nat.eq_dec l l); [lia|congruence].
            * rewrite aget_upd_neq by lia. rewrite Hdu by auto. f_equal. unfold cntk at 3. simpl.
              destruct (Nat.eq_dec l u); [congruence|lia].
        - eexists; split; [reflexivity|]. rewrite app_nil_r. auto. }
      destruct (Hcount (Nat.even j || hg) eq_refl) as (d' & Ed & Ld & D0 & Du).
      replace (if Nat.even j then _ else _) with (Some d').
      2:{ rewrite <- Ed. destruct (Nat.even j), hg; reflexivity. }
      cbn [obind]. rewrite aset_some by lia. cbn [obind].
      eexists; split; [reflexivity|]. unfold QInv. rewrite Hall', Hpre. cbn [p_vm p_ng p_pins p_deg].
      split; [exact Hm|]. repeat split; auto.
    + rewrite aset_some by lia. cbn [obind].
      eexists; split; [reflexivity|]. unfold QInv. rewrite Hall', Hpre. cbn [p_vm p_ng p_pins p_deg].
      split; [exact Hm|]. repeat split; auto.
      intros u Hu. rewrite map_app. cbn [map]. fold l. rewrite Hkeys.
      destruct (Nat.ltb_spec l n); [lia|]. rewrite andb_false_r, app_nil_r. auto.
  - (* new ghost *)
    assert (Hin : ~ In v all) by (rewrite <- memZ_In; congruence).
    assert (Hall' : add_new base (firstn (S j) pv) = all ++ [v]) by (rewrite Hall; unfold add1; now rewrite Em).
    rewrite (MapInv_none _ _ _ Hm Hin).
    assert (Hk : n + p_ng q = length all) by lia. rewrite Hk.
    assert (Hpreidx : map (idx (all ++ [v])) pre = map (idx all) pre).
    { apply map_ext_in. intros w Hw. apply idx_app. now apply Hincl. }
    assert (Hvidx : idx (all ++ [v]) v = length all) by (now apply idx_app_new).
    specialize (Hpins' (length all) (all ++ [v]) Hpreidx Hvidx).
    rewrite aset_some by lia. cbn [obind].
    eexists; split; [reflexivity|]. unfold QInv. rewrite Hall', Hpre. cbn [p_vm p_ng p_pins p_deg].
    split; [now apply MapInv_snoc|]. rewrite app_length. cbn [length]. repeat split; auto; try lia.
    intros u Hu. rewrite map_app, Hpreidx. cbn [map]. rewrite Hvidx, Hkeys.
    destruct (Nat.ltb_spec (length all) n); [lia|]. rewrite andb_false_r, app_nil_r. auto.
Qed.

Lemma pin1_loop d p q : QInv p q -> p + d <= length pv ->
  exists q', foldM (pin1 hg n pv) (seq p d) q = Some q' /\ QInv (p + d) q'.
Proof.
  revert p q; induction d as [|d IH]; intros p q HQ Hle.
  - exists q. rewrite Nat.add_0_r. auto.
  - destruct (pin1_step p q HQ ltac:(lia)) as (q1 & E1 & H1). cbn [seq foldM]. rewrite E1. cbn [obind].
    destruct (IH (S p) q1 H1 ltac:(lia)) as (q2 & E2 & H2). exists q2. split; auto.
    now replace (p + S d) with (S p + d) by lia.
Qed.

Lemma pv_len : length pv = nsum lens.
Proof. unfold pv, lens. apply length_concat. Qed.

Lemma pass1_ok q0 (pd0 : arr nat) : QInv 0 q0 -> length pd0 = length pss + 1 -> aget pd0 0 = Some 0 ->
  exists em eu pd q, foldM (edge1 hg n ids lens pv) (seq 0 (length pss)) ([], anew (length pss), pd0, q0)
     = Some (em, eu, pd, q) /\
  QInv (length pv) q /\ eu = ainit ids /\ length pd = length pss + 1 /\
  (forall k, k <= length pss -> aget pd k = Some (nsum (firstn k lens))).
Proof.
  intros HQ0 Lpd Hpd0.
  destruct (foldM_inv (edge1 hg n ids lens pv)
    (fun pre s => let '(em, eu, pd, q) := s in let k := length pre in
       QInv (nsum (firstn k lens)) q /\ eu = ainit (firstn k ids) ++ anew (length pss - k) /\
       length pd = length pss + 1 /\ (forall m, m <= k -> aget pd m = Some (nsum (firstn m lens))))
    (seq 0 (length pss)) ([], anew (length pss), pd0, q0)) as ([[[em eu] pd] q] & E & HQ & Heu & Hl & Hpd).
  - cbn [length firstn]. split; [exact HQ0|]. split; [|split; [auto|]].
    + simpl. rewrite ?Nat.sub_0_r; reflexivity.
    + intros m Hm. assert (m = 0) by lia; subst. auto.
  - intros pre x post [[[em eu] pd] q] Hs (HQ & Heu & Hl & Hpd).
    assert (Hx : x = length pre /\ length pre < length pss).
    { assert (N : nth_error (seq 0 (length pss)) (length pre) = Some x).
      { rewrite Hs, nth_error_app2, Nat.sub_diag; auto. }
      assert (L : length pre < length pss).
      { rewrite <- (seq_length (length pss) 0), Hs, app_length; simpl; lia. }
      rewrite nth_error_seq in N by auto. inversion N; auto. }
    destruct Hx as [-> L]. set (k := length pre) in *.
    destruct (nth_error ids k) as [gid|] eqn:Eg; [|apply nth_error_None in Eg; lia].
    destruct (nth_error lens k) as [d|] eqn:Ed.
    2:{ apply nth_error_None in Ed. unfold lens in Ed. rewrite map_length in Ed. lia. }
    assert (Lf : length (ainit (firstn k ids)) = k) by (rewrite ainit_length, firstn_length; lia).
    assert (Leu : length eu = length pss).
    { rewrite Heu, app_length, Lf, anew_length. lia. }
    unfold edge1. rewrite Eg. cbn [obind]. rewrite aset_some by lia. cbn [obind].
    rewrite Hpd by auto. cbn [obind]. rewrite Ed. cbn [obind]. rewrite aset_some by lia. cbn [obind].
    assert (Hsum : nsum (firstn (S k) lens) = nsum (firstn k lens) + d) by (now apply nsum_firstn_S).
    destruct (pin1_loop d (nsum (firstn k lens)) q HQ) as (q' & Eq & HQ').
    { rewrite pv_len, <- Hsum. apply nsum_firstn_le. }
    rewrite Eq. cbn [obind]. eexists; split; [reflexivity|].
    rewrite app_length. cbn [length]. fold k. replace (k + 1) with (S k) by lia.
    rewrite Hsum, upd_length. split; [exact HQ'|]. split; [|split; [auto|]].
    + rewrite Heu, (firstn_S_nth _ _ _ _ Eg). replace (upd _ k) with (upd (ainit (firstn k ids) ++ anew (length pss - k)) (length (ainit (firstn k ids)) + 0))
        by (f_equal; lia).
      rewrite upd_app_r. unfold ainit. rewrite map_app, <- app_assoc. f_equal.
      replace (length pss - k) with (S (length pss - S k)) by lia. reflexivity.
    + intros m Hm. destruct (Nat.eq_dec m (S k)) as [->|N].
      * rewrite aget_upd_eq by lia. now rewrite Hsum.
      * rewrite aget_upd_neq by lia. apply Hpd; lia.
  - exists em, eu, pd, q. rewrite seq_length in *. split; [exact E|]. split; [|split; [|split; auto]].
    + rewrite pv_len. unfold lens in *. rewrite firstn_all2 in HQ by (rewrite map_length; lia). exact HQ.
    + rewrite firstn_all2 in Heu by lia. rewrite Nat.sub_diag in Heu. simpl in Heu. now rewrite app_nil_r in Heu.
Qed.
End Pass1.

(* ------------------------------------------------------------------ *)
Lemma nth_error_concat A (pss : list (list A)) i ps m v :
  nth_error pss i = Some ps -> nth_error ps m = Some v ->
  nth_error (concat pss) (nsum (firstn i (map (@length A) pss)) + m) = Some v.
Proof.
  revert i; induction pss as [|p0 pss IH]; intros [|i] Hi Hm; simpl in Hi; try discriminate.
  - inversion Hi; subst. simpl. rewrite nth_error_app1; auto. apply nth_error_Some; congruence.
  - cbn [map firstn nsum fold_right concat]. fold (nsum (firstn i (map (@length A) pss))).
    rewrite nth_error_app2 by lia.
    replace (length p0 + nsum (firstn i (map (length (A:=A)) pss)) + m - length p0)
      with (nsum (firstn i (map (length (A:=A)) pss)) + m) by lia. auto.
Qed.

Section Pass2.
Variables (hg : bool) (n oldng : nat) (all ghosts : list Z) (pss : list (list Z)).
Let pv := concat pss.
Let lens := map (@length Z) pss.
Hypothesis Hnd : NoDup all.
Hypothesis Hincl : incl pv all.
Hypothesis Hng : skipn n all = ghosts.
Hypothesis Hnl : n <= length all.
Variables (pins pd : arr nat).
Hypothesis Hpins : pins = ainit (map (idx all) pv).
Hypothesis Hpd : forall k, k <= length pss -> aget pd k = Some (nsum (firstn k lens)).

(** local incidences contributed by one edge: (vertex, edge) in hypergraph mode, (source, destination) otherwise *)
Definition locc (i : nat) (ps : list Z) : list (nat * nat) :=
  if hg then filter (fun p => fst p <? n) (map (fun v => (idx all v, i)) ps)
  else match ps with
       | u :: v :: _ => if idx all u <? n then [(idx all u, idx all v)] else []
       | _ => []
       end.
Fixpoint occs (i : nat) (l : list (list Z)) : list (nat * nat) :=
  match l with [] => [] | ps :: r => locc i ps ++ occs (S i) r end.

Lemma occs_app i a b : occs i (a ++ b) = occs i a ++ occs (i + length a) b.
Proof. revert i; induction a as [|ps a IH]; intros i; cbn [app occs length].
  - now rewrite Nat.add_0_r.
  - rewrite IH, app_assoc. do 2 f_equal. lia. Qed.

Lemma locc_lt i ps u x : In (u, x) (locc i ps) -> u < n.
Proof. unfold locc. destruct hg.
  - rewrite filter_In. intros [_ H]. simpl in H. now apply Nat.ltb_lt.
  - destruct ps as [|a [|b ps]]; simpl; try tauto. destruct (Nat.ltb_spec (idx all a) n); simpl; try tauto.
    intros [E|[]]. inversion E; subst; auto. Qed.

Let tot := occs 0 pss.

Definition GhInv (seen : list Z) (gu : arr Z) : Prop :=
  length gu = length ghosts /\
  forall k v, nth_error ghosts k = Some v -> (k < oldng \/ In v seen) -> aget gu k = Some v.

Lemma nth_skipn A (l : list A) a k : nth_error (skipn a l) k = nth_error l (a + k).
Proof. revert l; induction a as [|a IH]; intros [|x l]; simpl; auto. now destruct k. Qed.

Lemma ghosts_nth k : nth_error ghosts k = nth_error all (n + k).
Proof. rewrite <- Hng. apply nth_skipn. Qed.

Lemma note_ghost_ok seen gu v j : GhInv seen gu -> nth_error pv j = Some v ->
  exists gu', note_ghost n pv gu (idx all v) j = Some gu' /\ GhInv (seen ++ [v]) gu'.
Proof.
  intros [L H] Hv. assert (Hin : In v all) by (apply Hincl; eapply nth_error_In; eauto).
  unfold note_ghost. destruct (Nat.leb_spec n (idx all v)) as [Hle|Hlt].
  - rewrite Hv. cbn [obind].
    assert (Hk : nth_error ghosts (idx all v - n) = Some v).
    { rewrite ghosts_nth. replace (n + (idx all v - n)) with (idx all v) by lia. now apply idx_nth. }
    rewrite aset_some by (rewrite L; apply nth_error_Some; congruence).
    eexists; split; [reflexivity|]. split; [now rewrite upd_length|].
    intros k w Hk' Hor. destruct (Nat.eq_dec (idx all v - n) k) as [<-|N].
    + rewrite aget_upd_eq by (rewrite L; apply nth_error_Some; congruence). congruence.
    + rewrite aget_upd_neq by auto. apply H; auto. destruct Hor as [|Hin']; auto.
      apply in_app_iff in Hin' as [|[->|[]]]; auto. exfalso. apply N.
      rewrite ghosts_nth in Hk'. apply (nth_idx _ _ _ Hnd) in Hk'. lia.
  - eexists; split; [reflexivity|]. split; auto. intros k w Hk' Hor. apply H; auto.
    destruct Hor as [|Hin']; auto. apply in_app_iff in Hin' as [|[->|[]]]; auto.
    rewrite ghosts_nth in Hk'. apply (nth_idx _ _ _ Hnd) in Hk'. lia.
Qed.

Lemma push_ok preocc u x postocc s : tot = preocc ++ (u, x) :: postocc -> u < n ->
  FillInv n tot preocc s -> exists s', push_row s u x = Some s' /\ FillInv n tot (preocc ++ [(u, x)]) s'.
Proof.
  intros E Hu HF. apply fill_step; auto.
  - intros w. rewrite E, cnt_of_app. lia.
  - rewrite E, cnt_of_app. unfold cnt_of at 3, vals_of. simpl. rewrite Nat.eqb_refl. simpl. lia.
Qed.

Lemma pins_get j v : nth_error pv j = Some v -> aget pins j = Some (idx all v).
Proof. intros H. rewrite Hpins, aget_ainit, nth_error_map, H. reflexivity. Qed.

Lemma hyper_inner i : hg = true -> forall psr seen preocc postocc j el tc gu,
  tot = preocc ++ locc i psr ++ postocc -> FillInv n tot preocc (el, tc) -> GhInv seen gu ->
  (forall m v, nth_error psr m = Some v -> nth_error pv (j + m) = Some v) ->
  exists el' tc' gu', foldM (pin2_hyper n pv pins i) (seq j (length psr)) (el, tc, gu) = Some (el', tc', gu') /\
    FillInv n tot (preocc ++ locc i psr) (el', tc') /\ GhInv (seen ++ psr) gu'.
Proof.
  intros Hhg. induction psr as [|v psr IH]; intros seen preocc postocc j el tc gu Ht HF HG Hpos.
  - exists el, tc, gu. split; auto. replace (locc i []) with (@nil (nat*nat)).
    + rewrite !app_nil_r. auto. + unfold locc. rewrite Hhg. reflexivity.
  - assert (Hv : nth_error pv j = Some v) by (specialize (Hpos 0 v eq_refl); now rewrite Nat.add_0_r in Hpos).
    destruct (note_ghost_ok seen gu v j HG Hv) as (gu' & Eg & HG').
    cbn [length seq foldM]. unfold pin2_hyper at 1. rewrite (pins_get _ _ Hv). cbn [obind]. rewrite Eg. cbn [obind].
    assert (Hpos' : forall m w, nth_error psr m = Some w -> nth_error pv (S j + m) = Some w).
    { intros m w Hm. specialize (Hpos (S m) w Hm). now replace (S j + m) with (j + S m) by lia. }
    assert (Hlc : locc i (v :: psr) = (if idx all v <? n then [(idx all v, i)] else []) ++ locc i psr).
    { unfold locc. rewrite Hhg. cbn [map filter fst]. destruct (idx all v <? n); reflexivity. }
    rewrite Hlc in *. destruct (Nat.ltb_spec (idx all v) n) as [Hl|Hl].
    + destruct (push_ok preocc (idx all v) i (locc i psr ++ postocc) (el, tc)) as ([el1 tc1] & Ep & HF1); auto.
      rewrite Ep. cbn [obind].
      destruct (IH (seen ++ [v]) (preocc ++ [(idx all v, i)]) postocc (S j) el1 tc1 gu') as (el2 & tc2 & gu2 & E2 & HF2 & HG2); auto.
      { rewrite Ht. rewrite <- !app_assoc. reflexivity. }
      exists el2, tc2, gu2. split; auto. split.
      * now rewrite <- app_assoc in HF2.
      * now rewrite <- app_assoc in HG2.
    + cbn [obind].
      destruct (IH (seen ++ [v]) preocc postocc (S j) el tc gu') as (el2 & tc2 & gu2 & E2 & HF2 & HG2); auto.
      exists el2, tc2, gu2. split; auto. split; auto. now rewrite <- app_assoc in HG2.
Qed.

Lemma pass2_ok (tc0 : arr nat) (gu0 : arr Z) :
  (hg = false -> Forall (fun ps => length ps = 2) pss) ->
  length tc0 = n -> (forall u, u < n -> aget tc0 u = Some (off tot u)) ->
  GhInv [] gu0 ->
  exists el tc gu, foldM (edge2 hg n pv pins pd) (seq 0 (length pss)) (anew (off tot n), tc0, gu0)
     = Some (el, tc, gu) /\
   el = ainit (concat (map (fun u => vals_of u tot) (seq 0 n))) /\ GhInv pv gu.
Proof.
  intros Htrad Ltc Htc HG0.
  destruct (foldM_inv (edge2 hg n pv pins pd)
    (fun pre s => let '(el, tc, gu) := s in let k := length pre in
       FillInv n tot (occs 0 (firstn k pss)) (el, tc) /\ GhInv (concat (firstn k pss)) gu)
    (seq 0 (length pss)) (anew (off tot n), tc0, gu0)) as ([[el tc] gu] & E & HF & HG).
  - cbn [length firstn occs concat]. split; auto. now apply fill_init.
  - intros pre x post [[el tc] gu] Hs (HF & HG).
    assert (Hx : x = length pre /\ length pre < length pss).
    { assert (N : nth_error (seq 0 (length pss)) (length pre) = Some x).
      { rewrite Hs, nth_error_app2, Nat.sub_diag; auto. }
      assert (L : length pre < length pss).
      { rewrite <- (seq_length (length pss) 0), Hs, app_length; simpl; lia. }
      rewrite nth_error_seq in N by auto. inversion N; auto. }
    destruct Hx as [-> L]. rewrite app_length. cbn [length]. set (k := length pre) in *.
    replace (k + 1) with (S k) by lia.
    destruct (nth_error pss k) as [ps|] eqn:Eps; [|apply nth_error_None in Eps; lia].
    assert (Hd : nth_error lens k = Some (length ps)) by (unfold lens; rewrite nth_error_map, Eps; reflexivity).
    unfold edge2. rewrite Hpd by lia. cbn [obind]. replace (k + 1) with (S k) by lia. rewrite Hpd by lia. cbn [obind].
    rewrite (nsum_firstn_S _ _ _ Hd).
    replace (nsum (firstn k lens) + length ps - nsum (firstn k lens)) with (length ps) by lia.
    assert (Hpos : forall m v, nth_error ps m = Some v -> nth_error pv (nsum (firstn k lens) + m) = Some v).
    { intros m v Hm. now apply nth_error_concat with (ps := ps). }
    assert (Hocc : occs 0 (firstn (S k) pss) = occs 0 (firstn k pss) ++ locc k ps).
    { rewrite (firstn_S_nth _ _ _ _ Eps), occs_app. cbn [occs]. rewrite app_nil_r.
      rewrite firstn_length. now replace (0 + Nat.min k (length pss)) with k by lia. }
    assert (Htot : tot = occs 0 (firstn k pss) ++ locc k ps ++ occs (S k) (skipn (S k) pss)).
    { rewrite app_assoc, <- Hocc. unfold tot. rewrite <- (firstn_skipn (S k) pss) at 1.
      rewrite occs_app, firstn_length. now replace (0 + Nat.min (S k) (length pss)) with (S k) by lia. }
    rewrite Hocc. rewrite (firstn_S_nth _ _ _ _ Eps), concat_app. cbn [concat]. rewrite app_nil_r.
    destruct hg eqn:Ehg.
    + destruct (hyper_inner k Ehg ps _ _ _ (nsum (firstn k lens)) el tc gu Htot HF HG Hpos)
        as (el' & tc' & gu' & E1 & HF' & HG'). exists (el', tc', gu'); split; auto.
    + assert (H2 : length ps = 2).
      { rewrite Forall_forall in Htrad. apply Htrad; auto. eapply nth_error_In; eauto. }
      destruct ps as [|a [|b [|c ps]]]; simpl in H2; try lia. clear H2.
      cbn [length Nat.add Nat.div Nat.divmod fst seq map foldM].
      replace ((2 + 1) / 2) with 1 by reflexivity. cbn [seq map foldM].
      set (p := nsum (firstn k lens)) in *. replace (p + 2 * 0) with p by lia.
      assert (Ha : nth_error pv p = Some a) by (specialize (Hpos 0 a eq_refl); now rewrite Nat.add_0_r in Hpos).
      assert (Hb : nth_error pv (p + 1) = Some b) by (apply (Hpos 1 b eq_refl)).
      destruct (note_ghost_ok _ gu a p HG Ha) as (gu1 & Eg1 & HG1).
      destruct (note_ghost_ok _ gu1 b (p + 1) HG1 Hb) as (gu2 & Eg2 & HG2).
      rewrite <- app_assoc in HG2. simpl in HG2.
      unfold pin2_trad. rewrite (pins_get _ _ Ha). cbn [obind]. rewrite Eg1. cbn [obind].
      rewrite (pins_get _ _ Hb). cbn [obind]. rewrite Eg2. cbn [obind].
      assert (El : locc k [a; b] = if idx all a <? n then [(idx all a, idx all b)] else []).
      { unfold locc. rewrite Ehg. reflexivity. }
      rewrite El in *. destruct (Nat.ltb_spec (idx all a) n) as [Hl|Hl].
      * destruct (push_ok (occs 0 (firstn k pss)) (idx all a) (idx all b) (occs (S k) (skipn (S k) pss)) (el, tc))
          as ([el1 tc1] & Ep & HF1); auto.
        rewrite Ep. cbn [obind]. exists (el1, tc1, gu2). split; auto.
      * exists (el, tc, gu2). cbn [obind]. rewrite app_nil_r. split; auto.
  - rewrite seq_length, firstn_all in HF, HG.
    exists el, tc, gu. split; auto. split; auto.
    change el with (fst (el, tc)). eapply fill_done; eauto.
Qed.
End Pass2.

(* ------------------------------------------------------------------ *)
(** * Representation invariant *)

(** weights actually stored: 1 everywhere when none are given *)
Definition eff_wgts (ws : list Z) (n : nat) : list Z := match ws with [] => repeat 1%Z n | _ => ws end.

(** Input edges: (global id, global ids of the pins).  In traditional mode each edge is [source; destination]. *)
Definition epins_of (es : list (Z * list Z)) : list (list Z) := map snd es.
Definition wf_edges (hg : bool) (es : list (Z * list Z)) : Prop :=
  hg = false -> Forall (fun ps => length ps = 2) (epins_of es).

Record EdRep (hg : bool) (n : nat) (all : list Z) (es : list (Z * list Z)) (ws : list Z) (ed : etd) : Prop := mkEdRep {
  er_wf    : wf_edges hg es;
  er_incl  : incl (concat (epins_of es)) all;
  er_num   : e_num ed = length es;
  er_npins : e_npins ed = length (concat (epins_of es));
  er_unmap : e_unmap ed = ainit (map fst es);
  er_wgts  : e_wgts ed = ainit ws;
  er_wlen  : length ws = length es;
  er_pdlen : length (e_pdeg ed) = length es + 1;
  er_pdeg  : forall k, k <= length es -> aget (e_pdeg ed) k = Some (nsum (firstn k (map (@length Z) (epins_of es))));
  er_pins  : e_pins ed = ainit (map (idx all) (concat (epins_of es)));
  er_dlen  : length (e_deg ed) = n + 1;
  er_deg   : forall k, k <= n -> aget (e_deg ed) k = Some (off (occs hg n all 0 (epins_of es)) k);
  er_list  : e_list ed = ainit (concat (map (fun u => vals_of u (occs hg n all 0 (epins_of es))) (seq 0 n)))
}.

(** [Rep g verts wts ghosts tys]: g stores exactly these vertices, weights, ghosts and edge types *)
Record Rep (g : graph) (verts wts ghosts : list Z) (tys : list (list (Z * list Z) * list Z)) : Prop := mkRep {
  rp_nlv   : nlv g = length verts;
  rp_ngv   : ngv g = length ghosts;
  rp_lun   : lunmap g = ainit verts;
  rp_lwg   : lwgts g = ainit wts;
  rp_wlen  : length wts = length verts;
  rp_gun   : gunmap g = ainit ghosts;
  rp_nd    : NoDup (verts ++ ghosts);
  rp_vm    : MapInv (vmap g) (verts ++ ghosts);
  rp_types : Forall2 (fun ty ed => EdRep (hyper g) (length verts) (verts ++ ghosts) (fst ty) (snd ty) ed) tys (types g)
}.

Lemma occs_ext hg n a1 a2 i pss : (forall v, In v (concat pss) -> idx a1 v = idx a2 v) ->
  occs hg n a1 i pss = occs hg n a2 i pss.
Proof.
  revert i; induction pss as [|ps pss IH]; intros i H; auto. cbn [occs]. rewrite IH.
  - f_equal. unfold locc. destruct hg.
    + f_equal. apply map_ext_in. intros v Hv. rewrite H; auto. simpl; apply in_app_iff; auto.
    + destruct ps as [|a [|b ps]]; auto. rewrite !H; auto; simpl; auto.
  - intros v Hv. apply H. simpl. apply in_app_iff; auto.
Qed.

Lemma EdRep_mono hg n all more es ws ed : EdRep hg n all es ws ed -> EdRep hg n (all ++ more) es ws ed.
Proof.
  intros []. assert (Hi : forall v, In v (concat (epins_of es)) -> idx (all ++ more) v = idx all v).
  { intros v Hv. apply idx_app. auto. }
  assert (Ho : occs hg n (all ++ more) 0 (epins_of es) = occs hg n all 0 (epins_of es)) by (now apply occs_ext).
  constructor; auto.
  - intros v Hv. apply in_app_iff; auto.
  - rewrite er_pins0. f_equal. apply map_ext_in. intros; symmetry; auto.
  - intros. rewrite Ho; auto.
  - rewrite Ho; auto.
Qed.

Lemma keysp_par n par l : keysp n true par l = keysp n true (negb par) l.
Proof. revert par; induction l as [|u l IH]; intros par; cbn [keysp]; auto.
  rewrite (IH (negb par)). rewrite !orb_true_r. reflexivity. Qed.

Lemma keysp_hyper n par all (i : nat) ps :
  keysp n true par (map (idx all) ps) = map fst (filter (fun p => fst p <? n) (map (fun v => (idx all v, i)) ps)).
Proof. revert par; induction ps as [|v ps IH]; intros par; auto. cbn [map keysp filter fst].
  rewrite orb_true_r, IH. destruct (idx all v <? n); reflexivity. Qed.

Lemma keysp_occs hg n all pss i : (hg = false -> Forall (fun ps => length ps = 2) pss) ->
  keysp n hg true (map (idx all) (concat pss)) = map fst (occs hg n all i pss).
Proof.
  intros H. revert i. induction pss as [|ps pss IH]; intros i; auto.
  cbn [concat occs]. rewrite !map_app, keysp_app, <- (IH ltac:(intros E; specialize (H E); now inversion H) (S i)).
  f_equal.
  - unfold locc. destruct hg.
    + apply keysp_hyper.
    + specialize (H eq_refl). inversion H; subst. destruct ps as [|a [|b [|c ps]]]; simpl in *; try lia.
      rewrite andb_true_r || idtac. destruct (idx all a <? n); reflexivity.
  - destruct hg.
    + destruct (Nat.even _); auto. apply keysp_par with (par := false).
    + specialize (H eq_refl). inversion H; subst. rewrite map_length, H2. reflexivity.
Qed.

Lemma edge_wgts_vec_ok n ws : ws = [] \/ length ws = n ->
  edge_wgts_vec n ws = Some (ainit (eff_wgts ws n)).
Proof.
  intros H. unfold edge_wgts_vec, eff_wgts. destruct ws as [|w0 ws0]; auto.
  destruct H as [H|H]; [discriminate|]. set (ws := w0 :: ws0) in *.
  destruct (foldM_inv (fun (a : arr Z) i => w <- nth_error ws i ;; aset a i w)
    (fun pre a => a = ainit (firstn (length pre) ws) ++ anew (n - length pre)) (seq 0 (length ws)) (anew n)) as (a & E & Ha).
  - simpl. now rewrite Nat.sub_0_r.
  - intros pre x post a Hs Ha.
    assert (N : nth_error (seq 0 (length ws)) (length pre) = Some x).
    { rewrite Hs, nth_error_app2, Nat.sub_diag; auto. }
    assert (L : length pre < length ws).
    { rewrite <- (seq_length (length ws) 0), Hs, app_length; simpl; lia. }
    rewrite nth_error_seq in N by auto. inversion N; subst x. cbn [Nat.add].
    destruct (nth_error ws (length pre)) as [w|] eqn:Ew; [|apply nth_error_None in Ew; lia]. cbn [obind].
    assert (Lf : length (ainit (firstn (length pre) ws)) = length pre) by (rewrite ainit_length, firstn_length; lia).
    rewrite aset_some by (rewrite Ha, app_length, Lf, anew_length; lia).
    eexists; split; [reflexivity|]. rewrite app_length. cbn [length].
    replace (length pre + 1) with (S (length pre)) by lia. rewrite (firstn_S_nth _ _ _ _ Ew).
    rewrite Ha. rewrite <- (Nat.add_0_r (length pre)) at 3. rewrite <- Lf at 3. rewrite upd_app_r.
    unfold ainit. rewrite map_app, <- app_assoc. f_equal.
    replace (n - length pre) with (S (n - S (length pre))) by lia. reflexivity.
  - rewrite E, seq_length, firstn_all, <- H, Nat.sub_diag in *. simpl in Ha. rewrite app_nil_r in Ha. now subst.
Qed.

Lemma edge_wgts_arr_ok n ws : length ws = n -> edge_wgts_arr n (Some ws) = Some (ainit ws).
Proof.
  intros H. destruct ws as [|w ws].
  - simpl in H. subst. reflexivity.
  - unfold edge_wgts_arr. rewrite <- H at 1.
    apply (edge_wgts_vec_ok n (w :: ws)). auto.
Qed.

Theorem construct_core_ok g verts wts ghosts tys es ws :
  Rep g verts wts ghosts tys -> wf_edges (hyper g) es -> length ws = length es -> ntypes g < 7 ->
  exists g', construct_core g (length es) (length (concat (epins_of es))) (map fst es)
       (map (@length Z) (epins_of es)) (concat (epins_of es)) (Some (ainit ws)) = Some (g', ntypes g) /\
    Rep g' verts wts (skipn (length verts) (add_new (verts ++ ghosts) (concat (epins_of es)))) (tys ++ [(es, ws)]) /\
    hyper g' = hyper g /\ self g' = self g /\ owners g' = owners g.
Proof.
  intros HR Hwf Hws Hnt. destruct HR as [Rn Rg Rl Rw Rwl Rgu Rnd Rvm Rty].
  unfold construct_core. cbv zeta. destruct (Nat.eqb_spec (ntypes g) 7) as [|_]; [lia|].
  rewrite aset_some by (rewrite anew_length; lia). cbn [obind].
  set (pss := epins_of es) in *. set (pv := concat pss). set (n := length verts) in *. rewrite Rn.
  set (base := verts ++ ghosts) in *. set (hg := hyper g) in *.
  set (all := add_new base pv).
  assert (Hnb : n <= length base) by (unfold base; rewrite app_length; unfold n; lia).
  assert (Lps : length pss = length es) by (unfold pss, epins_of; apply map_length).
  assert (Hq0 : QInv hg n base pss 0
     (mkPst (ainit (repeat 0 (n + 1))) (anew (length pv)) (vmap g) (ngv g))).
  { unfold QInv. cbn [firstn p_vm p_ng p_pins p_deg map]. unfold add_new. cbn [fold_left].
    split; [exact Rvm|]. split; [rewrite Rg; unfold base; rewrite app_length; unfold n; lia|].
    split; [simpl; fold pv; now rewrite Nat.sub_0_r|].
    split; [rewrite ainit_length, repeat_length; auto|].
    split; [rewrite aget_ainit; replace (n + 1) with (S n) by lia; reflexivity|].
    intros u Hu. rewrite aget_ainit, nth_error_repeat_lt by lia. reflexivity. }
  destruct (pass1_ok hg n base (map fst es) pss Rnd Hnb ltac:(rewrite map_length; lia) _
     (upd (anew (length es + 1)) 0 (Some 0)) Hq0) as (em & eu & pd & q & E1 & HQ & Heu & Lpd & Hpd).
  { rewrite upd_length, anew_length. lia. }
  { rewrite aget_upd_eq; auto. rewrite anew_length; lia. }
  rewrite Lps in E1. fold pv in E1. rewrite E1. cbn [obind]. clear E1.
  destruct HQ as (Hvm & Hng & Hpins & Hdl & Hd0 & Hdu).
  fold pv in Hvm, Hng, Hpins, Hdu. rewrite firstn_all in Hvm, Hng, Hpins, Hdu. fold all in Hvm, Hng, Hpins, Hdu.
  rewrite Nat.sub_diag in Hpins. cbn [anew repeat] in Hpins. rewrite app_nil_r in Hpins.
  set (tot := occs hg n all 0 pss).
  assert (Hdu' : forall u, u < n -> aget (p_deg q) (u + 1) = Some (cnt_of u tot)).
  { intros u Hu. rewrite Hdu by auto. f_equal. unfold pv. rewrite (keysp_occs hg n all pss 0 Hwf). apply cntk_fst. }
  destruct (prefix_sums_ok n (p_deg q) (fun u => cnt_of u tot) Hdl Hd0 Hdu') as (deg & Edeg & Ldeg & Hdeg).
  rewrite Edeg. cbn [obind]. rewrite Hdeg by lia. cbn [obind].
  change (nsum (map (fun u => cnt_of u tot) (seq 0 n))) with (off tot n).
  assert (Hinclpv : incl pv all) by (intros v Hv; now apply add_new_In).
  assert (Hndall : NoDup all) by (now apply add_new_NoDup).
  destruct (add_new_ext base pv) as [more Hmore]. fold all in Hmore.
  assert (Hallv : all = verts ++ (ghosts ++ more)) by (rewrite Hmore; unfold base; now rewrite app_assoc).
  set (ghosts' := skipn n all).
  assert (Hgh' : ghosts' = ghosts ++ more) by (unfold ghosts'; rewrite Hallv; apply skipn_app_exact).
  assert (Hall : all = verts ++ ghosts') by (now rewrite Hgh').
  assert (Hngl : p_ng q = length ghosts').
  { rewrite Hng, Hall, app_length. unfold n. lia. }
  assert (Hgrow : exists gu, grow_ghosts (gunmap g) (p_ng q) (p_ng q - ngv g) = Some gu /\
      GhInv (length ghosts) ghosts' [] gu).
  { rewrite Hngl, Hgh', app_length, Rg. replace (length ghosts + length more - length ghosts) with (length more) by lia.
    unfold grow_ghosts. rewrite Rgu.
    assert (Hinit : forall gu, length gu = length ghosts + length more -> firstn (length ghosts) gu = ainit ghosts ->
        GhInv (length ghosts) (ghosts ++ more) [] gu).
    { intros gu L F. split; [rewrite app_length; auto|]. intros k v Hk [Hk'|[]].
      rewrite nth_error_app1 in Hk by auto.
      rewrite <- (firstn_skipn (length ghosts) gu), F. rewrite aget_app_l by (rewrite ainit_length; auto).
      now rewrite aget_ainit. }
    destruct (Nat.ltb_spec 0 (length more)) as [Hpos|Hz].
    - destruct (ainit ghosts) as [|c gs] eqn:Eg.
      + destruct ghosts; [|discriminate]. eexists; split; [reflexivity|]. apply Hinit.
        * apply anew_length. * reflexivity.
      + rewrite <- Eg in *. rewrite ainit_length.
        replace (length ghosts + length more - length more) with (length ghosts) by lia.
        rewrite Nat.leb_refl. eexists; split; [reflexivity|].
        rewrite firstn_all2 by (rewrite ainit_length; lia). apply Hinit.
        * rewrite app_length, ainit_length, anew_length. lia.
        * rewrite <- (ainit_length _ ghosts). apply firstn_app_exact.
    - eexists; split; [reflexivity|]. apply Hinit.
      + rewrite ainit_length. lia.
      + rewrite firstn_all2; auto. rewrite ainit_length; lia. }
  destruct Hgrow as (gu & Egrow & HG0). rewrite Egrow. cbn [obind].
  destruct (pass2_ok hg n (length ghosts) all ghosts' pss Hndall Hinclpv eq_refl
      ltac:(rewrite Hall, app_length; unfold n; lia) (p_pins q) pd Hpins Hpd (firstn n deg) gu Hwf)
    as (el & tc & gu' & E2 & Hel & HG).
  { rewrite firstn_length. lia. }
  { intros u Hu. rewrite <- (aget_app_l _ (firstn n deg) (skipn n deg)) by (rewrite firstn_length; lia).
    rewrite firstn_skipn. apply Hdeg. lia. }
  { exact HG0. }
  fold tot in E2. rewrite Lps in E2. fold pv in E2.
  match goal with |- context [foldM (edge2 ?a ?b ?c ?d ?e) ?l ?st] =>
    replace (foldM (edge2 a b c d e) l st) with (Some (el, tc, gu')) by (symmetry; exact E2) end.
  cbn [obind]. clear E2.
  eexists; split; [reflexivity|].
  assert (Hgu' : gu' = ainit ghosts').
  { destruct HG as [L HG]. apply nth_error_ext. intros k. unfold ainit. rewrite nth_error_map.
    destruct (nth_error ghosts' k) as [v|] eqn:Ek.
    - assert (Hk : aget gu' k = Some v).
      { apply HG; auto. rewrite Hgh' in Ek. destruct (Nat.lt_ge_cases k (length ghosts)); auto. right.
        assert (Hin : In v all).
        { rewrite Hallv, in_app_iff. right. eapply nth_error_In; eauto. }
        destruct (add_new_sub _ _ _ Hin) as [Hb|Hp]; auto. exfalso.
        rewrite nth_error_app2 in Ek by auto.
        rewrite Hmore in Hndall. apply NoDup_app_iff in Hndall as (_ & _ & Hd). apply (Hd v); auto.
        eapply nth_error_In; eauto. }
      unfold aget in Hk. destruct (nth_error gu' k) as [[x|]|]; simpl; congruence.
    - apply nth_error_None. rewrite L. now apply nth_error_None. }
  cbn [hyper self owners]. split; [|auto].
  constructor; cbn [nlv ngv lunmap lwgts gunmap vmap types hyper]; auto.
  - now rewrite <- Hall.
  - now rewrite <- Hall.
  - fold n. fold hg. fold all. fold ghosts'. rewrite <- Hall. apply Forall2_app.
    + rewrite Hmore. eapply Forall2_impl; [|exact Rty]. intros; now apply EdRep_mono.
    + constructor; [|constructor]. constructor; cbn [fst snd e_num e_npins e_unmap e_wgts e_pdeg e_pins e_deg e_list]; fold pss; fold pv; auto.
      * destruct hg eqn:Ehg; auto. specialize (Hwf eq_refl). fold pss in Hwf. unfold pv.
        rewrite <- Lps. rewrite length_concat.
        assert (Hs : nsum (map (length (A:=Z)) pss) = 2 * length pss).
        { clear - Hwf. induction Hwf as [|x l Hx Hf IH]; auto. cbn [map nsum fold_right length].
          fold (nsum (map (length (A:=Z)) l)). rewrite IH, Hx. lia. }
        rewrite Hs. rewrite Nat.mul_comm. apply Nat.div_mul. lia.
      * lia.
      * intros k Hk. apply Hpd. lia.
Qed.

Theorem constructEdges_ok g verts wts ghosts tys es ws :
  Rep g verts wts ghosts tys -> wf_edges (hyper g) es -> ws = [] \/ length ws = length es -> ntypes g < 7 ->
  exists g', constructEdges g (map fst es) (map (@length Z) (epins_of es)) (concat (epins_of es)) ws = Some (g', ntypes g) /\
    Rep g' verts wts (skipn (length verts) (add_new (verts ++ ghosts) (concat (epins_of es))))
        (tys ++ [(es, eff_wgts ws (length es))]) /\
    hyper g' = hyper g /\ self g' = self g /\ owners g' = owners g.
Proof.
  intros HR Hwf Hws Hnt. unfold constructEdges. unfold epins_of at 1. rewrite !map_length, Nat.eqb_refl.
  rewrite edge_wgts_vec_ok by auto.
  apply construct_core_ok; auto.
  unfold eff_wgts. destruct ws; [apply repeat_length|]. destruct Hws; [discriminate|auto].
Qed.

(** ** constructVerts *)
Lemma snoc_upd A (l : list A) (x : A) m : upd (ainit l ++ anew (S m)) (length l) (Some x) = ainit (l ++ [x]) ++ anew m.
Proof. rewrite <- (ainit_length _ l) at 1. rewrite <- (Nat.add_0_r (length (ainit l))), upd_app_r.
  unfold ainit. rewrite map_app, <- app_assoc. reflexivity. Qed.

Theorem constructVerts_ok me hg verts ws :
  NoDup verts -> length ws <= length verts ->
  exists g, constructVerts me hg verts ws = Some g /\
    Rep g verts (ws ++ repeat 1%Z (length verts - length ws)) [] [] /\
    hyper g = hg /\ self g = me /\ owners g = [].
Proof.
  intros Hnd Hw. unfold constructVerts. set (n := length verts).
  set (W := ws ++ repeat 1%Z (n - length ws)).
  assert (LW : length W = n) by (unfold W; rewrite app_length, repeat_length; unfold n in *; lia).
  destruct (foldM_inv (fun '(lu, lw, vm) i =>
      v <- nth_error verts i ;; lu' <- aset lu i v ;;
      w <- (if i <? length ws then nth_error ws i else Some 1%Z) ;;
      lw' <- aset lw i w ;; Some (lu', lw', zset vm v i))
    (fun pre s => let '(lu, lw, vm) := s in let k := length pre in
       lu = ainit (firstn k verts) ++ anew (n - k) /\ lw = ainit (firstn k W) ++ anew (n - k) /\
       MapInv vm (firstn k verts)) (seq 0 n) (anew n, anew n, [])) as ([[lu lw] vm] & E & Hlu & Hlw & Hvm).
  - cbn [length firstn]. rewrite Nat.sub_0_r. repeat split; auto; intros H; try discriminate.
    destruct k; discriminate.
  - intros pre x post [[lu lw] vm] Hs (Hlu & Hlw & Hvm).
    assert (N : nth_error (seq 0 n) (length pre) = Some x).
    { rewrite Hs, nth_error_app2, Nat.sub_diag; auto. }
    assert (L : length pre < n).
    { rewrite <- (seq_length n 0), Hs, app_length; simpl; lia. }
    rewrite nth_error_seq in N by auto. inversion N; subst x. clear N. cbn [Nat.add].
    set (k := length pre) in *.
    destruct (nth_error verts k) as [v|] eqn:Ev; [|apply nth_error_None in Ev; unfold n in L; lia].
    destruct (nth_error W k) as [w|] eqn:Ew; [|apply nth_error_None in Ew; lia].
    assert (Ew' : (if k <? length ws then nth_error ws k else Some 1%Z) = Some w).
    { rewrite <- Ew. unfold W. destruct (Nat.ltb_spec k (length ws)) as [Hk|Hk].
      - now rewrite nth_error_app1.
      - rewrite nth_error_app2 by auto. rewrite nth_error_repeat_lt; auto. lia. }
    assert (Lv : length (firstn k verts) = k) by (rewrite firstn_length; unfold n in L; lia).
    assert (LWk : length (firstn k W) = k) by (rewrite firstn_length; lia).
    cbn [obind]. rewrite aset_some by (rewrite Hlu, app_length, ainit_length, anew_length; lia). cbn [obind].
    rewrite Ew'. cbn [obind]. rewrite aset_some by (rewrite Hlw, app_length, ainit_length, anew_length; lia). cbn [obind].
    eexists; split; [reflexivity|]. rewrite app_length. cbn [length]. fold k. replace (k + 1) with (S k) by lia.
    rewrite (firstn_S_nth _ _ _ _ Ev), (firstn_S_nth _ _ _ _ Ew).
    replace (n - k) with (S (n - S k)) in * by lia. split; [|split].
    + rewrite Hlu. rewrite <- Lv at 3. apply snoc_upd.
    + rewrite Hlw. rewrite <- LWk at 3. apply snoc_upd.
    + rewrite <- Lv at 1. apply MapInv_snoc; auto. intros Hin.
      rewrite <- (firstn_skipn k verts) in Hnd. apply NoDup_app_iff in Hnd as (_ & _ & Hd).
      apply (Hd v Hin). apply nth_error_In with (n := 0). rewrite nth_skipn, Nat.add_0_r. exact Ev.
  - rewrite E. cbn [obind]. rewrite seq_length, Nat.sub_diag in *. cbn [anew repeat] in *.
    rewrite app_nil_r in *. fold n in Hlu, Hlw.
    rewrite firstn_all2 in Hlu, Hvm by (unfold n; lia). rewrite firstn_all2 in Hlw by lia. subst lu lw.
    eexists; split; [reflexivity|]. cbn. split; [|auto].
    constructor; cbn; auto; try (rewrite app_nil_r; auto).
Qed.
