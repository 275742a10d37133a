(** Lemmas about the second-adjacency arrays and their iteration. *)
From Verif Require Import Base GraphModel CsrProofs ConstructProofs GraphSpec AccessProofs AccessProofs2 CountProofs GraphTop GraphTop2 SecondAdjModel.

Definition ord_ok (ord : nat -> list nat -> list nat) : Prop := forall h l, Permutation (ord h l) l.
(** what a row finally contains (handles, in the order in which they are written) *)
Definition row_out (ord : nat -> list nat -> list nat) (compress : bool) (h : nat) (others : list nat) : list nat :=
  if compress then ord h (uniq_adj h others) else others.

Lemma nsum_firstn_S (f : nat -> nat) l i x : nth_error l i = Some x -> nsum (map f (firstn (S i) l)) = nsum (map f (firstn i l)) + f x.
Proof.
  revert i; induction l as [|a l IH]; intros [|i] H; try discriminate; [inversion H; cbn; lia|]. cbn in H.
  change (nsum (map f (firstn (S (S i)) (a :: l)))) with (f a + nsum (map f (firstn (S i) l))).
  change (nsum (map f (firstn (S i) (a :: l)))) with (f a + nsum (map f (firstn i l))). rewrite (IH i H). lia.
Qed.

Section G.
Variables (n : nat) (row : nat -> option (list nat)) (lid : nat -> option nat) (ord : nat -> list nat -> list nat) (compress : bool) (hs : list nat).
Variables (R : nat -> list nat) (L : nat -> nat).
Hypothesis Hn : length hs = n.
Hypothesis HR : forall h, In h hs -> row h = Some (R h).
Hypothesis HL : forall h x, In h hs -> In x (R h) -> lid x = Some (L x).
Hypothesis HO : ord_ok ord.
Notation out h := (map L (row_out ord compress h (R h))).
Notation pos i := (nsum (map (fun h => length (out h)) (firstn i hs))).

Lemma row_len h : (if compress then length (uniq_adj h (R h)) else length (R h)) = length (out h).
Proof. rewrite map_length. unfold row_out. destruct compress; auto. symmetry. apply Permutation_length, HO. Qed.

Lemma sa_offsets_ok : exists off, sa_offsets n row compress hs = Some off /\ forall i, i <= n -> aget off i = Some (pos i).
Proof.
  unfold sa_offsets. rewrite aset_some by (rewrite anew_length; lia). cbn [obind].
  destruct (foldM_inv (fun '(off, id) h => others <- row h ;; prev <- aget off (id - 1) ;;
      off' <- aset off id (prev + if compress then length (uniq_adj h others) else length others) ;; Some (off', id + 1))
    (fun pre (st : arr nat * nat) => length (fst st) = n + 1 /\ snd st = S (length pre) /\ forall i, i <= length pre -> aget (fst st) i = Some (pos i))
    hs (upd (anew (n + 1)) 0 (Some 0), 1)) as ((off & id) & E & (_ & _ & A)).
  - cbn [fst snd length]. split; [now rewrite upd_length, anew_length|]. split; auto. intros i Hi. assert (i = 0) as -> by lia. rewrite aget_upd_eq; [reflexivity|rewrite anew_length; lia].
  - intros pre x post (off & id) Hs (A & B & C). cbn [fst snd] in *. assert (Hx : nth_error hs (length pre) = Some x).
    { rewrite Hs, nth_error_app2, Nat.sub_diag by lia. reflexivity. }
    assert (In x hs) by (eapply nth_error_In; eauto). assert (length pre < n) by (rewrite <- Hn; apply nth_error_Some; congruence).
    rewrite HR by auto. cbn [obind]. subst id. replace (S (length pre) - 1) with (length pre) by lia. rewrite C by lia. cbn [obind].
    rewrite aset_some by lia. cbn [obind]. eexists. split; [reflexivity|]. cbn [fst snd]. split; [now rewrite upd_length|]. rewrite app_length. cbn [length]. split; [lia|].
    intros i Hi. destruct (Nat.eq_dec i (S (length pre))) as [->|N].
    + rewrite aget_upd_eq by lia. rewrite row_len. rewrite (nsum_firstn_S (fun h => length (out h)) hs (length pre) x Hx). reflexivity.
    + rewrite aget_upd_neq by auto. apply C. lia.
  - unfold arr in E |- *. rewrite E. cbn [obind]. exists off. split; auto. intros i Hi. cbn [fst] in A. apply A. lia.
Qed.

Lemma put_list (xs : list nat) : (forall x, In x xs -> lid x = Some (L x)) -> forall (done : list nat) k, length xs <= k ->
  foldM (fun '(ls, id) x => l <- lid x ;; ls' <- aset ls id l ;; Some (ls', id + 1)) xs (ainit done ++ anew k, length done) =
  Some (ainit (done ++ map L xs) ++ anew (k - length xs), length (done ++ map L xs)).
Proof.
  induction xs as [|x xs IH]; intros H done k Hk.
  - cbn [foldM map length]. now rewrite app_nil_r, Nat.sub_0_r.
  - cbn [foldM]. rewrite H by (left; auto). cbn [obind]. rewrite aset_some by (rewrite app_length, ainit_length, anew_length; cbn in Hk; lia). cbn [obind].
    destruct k as [|k]; [cbn in Hk; lia|].
    assert (E : upd (ainit done ++ anew (S k)) (length done) (Some (L x)) = ainit (done ++ [L x]) ++ anew k).
    { replace (length done) with (length (ainit done) + 0) by (rewrite ainit_length; lia). rewrite upd_app_r. unfold ainit. rewrite map_app, <- app_assoc. reflexivity. }
    rewrite E. replace (length done + 1) with (length (done ++ [L x])) by (rewrite app_length; reflexivity).
    rewrite IH; [|intros; apply H; right; auto|cbn in Hk; lia]. cbn [map length]. now rewrite <- app_assoc.
Qed.

Lemma out_in h x : In h hs -> In x (row_out ord compress h (R h)) -> In x (R h).
Proof.
  intros Hh Hx. unfold row_out in Hx. destruct compress; auto. apply (Permutation_in _ (HO _ _)) in Hx. unfold uniq_adj in Hx.
  apply in_remove in Hx as (Hx & _). now apply nodup_In in Hx.
Qed.

Lemma sa_lists_ok : sa_lists (pos n) row lid ord compress hs = Some (ainit (concat (map (fun h => out h) hs))).
Proof.
  unfold sa_lists.
  assert (G : forall us done, (forall h, In h us -> In h hs) -> foldM (fun st h => others <- row h ;;
      foldM (fun '(ls, id) x => l <- lid x ;; ls' <- aset ls id l ;; Some (ls', id + 1)) (if compress then ord h (uniq_adj h others) else others) st) us
      (ainit done ++ anew (nsum (map (fun h => length (out h)) us)), length done) = Some (ainit (done ++ concat (map (fun h => out h) us)), length (done ++ concat (map (fun h => out h) us)))).
  { induction us as [|u us IH]; intros done Hu.
    - cbn [foldM map concat nsum fold_right]. unfold anew. cbn [repeat]. now rewrite !app_nil_r.
    - cbn [foldM]. rewrite HR by (apply Hu; left; auto). cbn [obind]. change (if compress then ord u (uniq_adj u (R u)) else R u) with (row_out ord compress u (R u)).
      rewrite put_list; [|intros x Hx; apply (HL u); [apply Hu; left; auto|eapply out_in; eauto; apply Hu; left; auto]|].
      + cbn [obind map]. cbn [nsum fold_right]. rewrite map_length. change (fold_right Nat.add 0) with nsum.
        replace (length (row_out ord compress u (R u)) + nsum (map (fun h => length (out h)) us) - length (row_out ord compress u (R u))) with (nsum (map (fun h => length (out h)) us)) by lia.
        rewrite IH by (intros; apply Hu; right; auto). cbn [concat]. now rewrite <- app_assoc.
      + cbn [map nsum fold_right]. rewrite map_length. lia. }
  specialize (G hs [] (fun _ H => H)). cbn [ainit map app length] in G. rewrite <- Hn, firstn_all. unfold arr in G |- *. rewrite G. reflexivity.
Qed.

Lemma sa_make_ok : exists s, sa_make n row lid ord compress hs = Some s /\ (forall i, i <= n -> aget (sa_off s) i = Some (pos i)) /\ sa_list s = ainit (concat (map (fun h => out h) hs)).
Proof.
  destruct sa_offsets_ok as (off & E & A). unfold sa_make. rewrite E. cbn [obind]. rewrite (A n) by lia. cbn [obind]. rewrite sa_lists_ok. cbn [obind].
  eexists. split; [reflexivity|]. split; auto.
Qed.

(** reading row i of the flat list *)
Lemma flat_nth i h k x : nth_error hs i = Some h -> nth_error (out h) k = Some x -> nth_error (concat (map (fun h => out h) hs)) (pos i + k) = Some x.
Proof.
  clear HR HL Hn HO. revert i. induction hs as [|a l IH]; intros [|i] Hi Hk; cbn in Hi; try discriminate.
  - inversion Hi; subst a. cbn [firstn map concat nsum fold_right plus]. rewrite nth_error_app1; [exact Hk|]. apply nth_error_Some. intros X. rewrite X in Hk. discriminate.
  - cbn [firstn map concat nsum fold_right]. rewrite nth_error_app2 by (cbn; lia). specialize (IH i Hi Hk). rewrite <- IH. f_equal. unfold nsum. cbn. lia.
Qed.
Lemma flat_len : length (concat (map (fun h => out h) hs)) = pos n.
Proof. rewrite length_concat, map_map, <- Hn, firstn_all. reflexivity. Qed.
Lemma pos_S i h : nth_error hs i = Some h -> pos (S i) = pos i + length (out h).
Proof. intros H. apply (nsum_firstn_S (fun h => length (out h)) hs i h H). Qed.
Lemma pos_mono i h : nth_error hs i = Some h -> pos i + length (out h) <= pos n.
Proof.
  intros H. rewrite <- pos_S by eauto. rewrite <- Hn, firstn_all. clear - H. revert i H. induction hs as [|a l IH]; intros [|i] H; try discriminate; cbn [firstn map nsum fold_right].
  - cbn. lia.
  - specialize (IH i H). cbn [firstn map nsum fold_right] in IH |- *. unfold nsum in IH. cbn in *. lia.
Qed.

(** the loop over a row visits exactly the row *)
Lemma sa_loop_ok (nt : nat) (num : nat -> option nat) (enc : nat -> nat -> nat) tb s : 0 < nt -> num 0 = Some n -> sa_get tb 0 = Some s ->
  (forall i, i <= n -> aget (sa_off s) i = Some (pos i)) -> sa_list s = ainit (concat (map (fun h => out h) hs)) ->
  forall i h, nth_error hs i = Some h -> forall fuel, length (out h) < fuel ->
  sa_loop (sa_iterate nt num enc tb) fuel (pos (S i) * nt + nt + 0 + 1) (pos i * nt + 0 + 1) = Some (map (fun x => enc x 0) (out h)).
Proof.
  intros Hnt Hnum Htb Hoff Hlist i h Hi.
  assert (S1 : forall q, sa_iterate nt num enc tb (q * nt + 0 + 1) = Some (match nth_error (concat (map (fun h => out h) hs)) q with Some x => enc x 0 | None => 0 end, S q * nt + 0 + 1)).
  { intros q. unfold sa_iterate. assert (Ed : edec nt (q * nt + 0 + 1) = Some (0, q)).
    { replace (q * nt + 0 + 1) with (getEdge nt q 0) by (unfold getEdge; lia). apply edec_getEdge. auto. }
    rewrite Ed. cbn [obind]. rewrite Htb. cbn [obind]. rewrite Hnum. cbn [obind]. rewrite Hoff by lia. cbn [obind].
    destruct (nth_error (concat (map (fun h => out h) hs)) q) as [x|] eqn:Eq.
    - assert (q < pos n) by (rewrite <- flat_len; apply nth_error_Some; congruence). destruct (Nat.leb_spec (pos n) q); [lia|].
      rewrite Hlist, aget_ainit, Eq. cbn [obind]. do 2 f_equal. lia.
    - apply nth_error_None in Eq. rewrite flat_len in Eq. destruct (Nat.leb_spec (pos n) q); [|lia]. cbn [obind]. do 2 f_equal. lia. }
  rewrite (pos_S i h Hi).
  assert (G : forall r k, (forall j x, nth_error r j = Some x -> nth_error (concat (map (fun h => out h) hs)) (pos i + k + j) = Some x) -> k + length r = length (out h) ->
     forall fuel, length r < fuel -> sa_loop (sa_iterate nt num enc tb) fuel ((pos i + length (out h)) * nt + nt + 0 + 1) ((pos i + k) * nt + 0 + 1) = Some (map (fun x => enc x 0) r)).
  { induction r as [|x r IH]; intros k H Hk fuel Hf; (destruct fuel as [|fuel]; [cbn in Hf; lia|]); cbn [sa_loop]; rewrite S1; cbn [obind].
    - cbn [length] in Hk. rewrite <- Hk. replace (S (pos i + k) * nt + 0 + 1 =? (pos i + (k + 0)) * nt + nt + 0 + 1) with true; [reflexivity|]. symmetry. apply Nat.eqb_eq. rewrite Nat.add_0_r. cbn. lia.
    - pose proof (H 0 x eq_refl) as H0. rewrite Nat.add_0_r in H0. rewrite H0.
      replace (S (pos i + k) * nt + 0 + 1 =? (pos i + length (out h)) * nt + nt + 0 + 1) with false.
      + replace (S (pos i + k)) with (pos i + S k) by lia. rewrite IH; [reflexivity| |cbn in Hk; lia|cbn in Hf; lia].
        intros j y Hj. replace (pos i + S k + j) with (pos i + k + S j) by lia. now apply H.
      + symmetry. apply Nat.eqb_neq. cbn [length] in Hk. intros X. assert (k < length (out h)) by lia.
        assert ((pos i + length (out h)) * nt + nt = S (pos i + k) * nt) by lia. assert (pos i + length (out h) + 1 = S (pos i + k)) by (apply (Nat.mul_cancel_r _ _ nt); [lia|]; nia). lia. }
  intros fuel Hf. specialize (G (out h) 0). rewrite Nat.add_0_r in G. apply G; auto. intros j x Hj. eapply flat_nth; eauto.
Qed.
End G.

(** handles and global ids *)
Section V.
Variables (me : Z) (hg : bool) (verts vws : list Z) (tys : list type_input) (g : graph).
Hypothesis HC : constructed me hg verts vws tys g.
Notation all := (verts ++ ghosts_of verts tys).
Notation HR := (proj1 (constructed_rep _ _ _ _ _ _ HC)).
Lemma vgid_inv h v : vgid g h = Some v -> exists l, h = getVertex l /\ nth_error all l = Some v.
Proof.
  intros H. destruct h as [|l]; [discriminate|]. exists l. split; [unfold getVertex; lia|].
  destruct (Nat.lt_ge_cases l (length all)) as [Hl|Hl]; [now rewrite <- (vgid_ok _ _ _ _ _ HR l Hl)|].
  exfalso. unfold vgid in H. cbn [vlid obind] in H. rewrite (rp_nlv _ _ _ _ _ HR), (rp_lun _ _ _ _ _ HR) in H. rewrite app_length in Hl.
  destruct (Nat.leb_spec (length verts) l); [|lia]. apply aget_lt in H. rewrite (rp_gun _ _ _ _ _ HR), ainit_length in H. lia.
Qed.
Lemma vgid_inj h h' v : vgid g h = Some v -> vgid g h' = Some v -> h = h'.
Proof.
  intros A B. apply vgid_inv in A as (l & -> & A). apply vgid_inv in B as (l' & -> & B). f_equal. eapply NoDup_nth_error_inj; eauto. apply HR.
Qed.
Lemma mapM_inj_nodup hs gs : mapM (vgid g) hs = Some gs -> NoDup hs -> NoDup gs.
Proof.
  revert gs; induction hs as [|h hs IH]; intros gs E N; cbn in E; [inversion E; constructor|].
  destruct (vgid g h) as [v|] eqn:Ev; [|discriminate]. cbn in E. destruct (mapM (vgid g) hs) as [r|] eqn:Er; [|discriminate]. inversion E; subst.
  inversion N; subst. constructor; [|now apply IH]. intros X. apply In_nth_error in X as (k & X).
  assert (exists h', In h' hs /\ vgid g h' = Some v) as (h' & Hh & Hv).
  { assert (k < length hs) as Lk by (rewrite <- (mapM_length _ _ _ _ _ Er); apply nth_error_Some; congruence). destruct (nth_error hs k) as [h'|] eqn:Ek; [|apply nth_error_None in Ek; lia].
    destruct (mapM_nth _ _ _ _ _ _ _ Er Ek) as (y & A & B). exists h'. split; [eapply nth_error_In; eauto|]. congruence. }
  apply H1. now rewrite (vgid_inj h h' v Ev Hv).
Qed.
Lemma mapM_in_iff hs gs w : mapM (vgid g) hs = Some gs -> (In w gs <-> exists h, In h hs /\ vgid g h = Some w).
Proof.
  intros E. split.
  - intros X. apply In_nth_error in X as (k & X). assert (k < length hs) as Lk by (rewrite <- (mapM_length _ _ _ _ _ E); apply nth_error_Some; congruence).
    destruct (nth_error hs k) as [h'|] eqn:Ek; [|apply nth_error_None in Ek; lia]. destruct (mapM_nth _ _ _ _ _ _ _ E Ek) as (y & A & B). exists h'. split; [eapply nth_error_In; eauto|]. congruence.
  - intros (h & Hh & Hv). apply In_nth_error in Hh as (k & Hk). destruct (mapM_nth _ _ _ _ _ _ _ E Hk) as (y & A & B). assert (y = w) by congruence. subst. eapply nth_error_In; eauto.
Qed.
(** the global ids of a compressed row *)
Lemma uniq_gids ord hs nb h v : ord_ok ord -> mapM (vgid g) hs = Some nb -> vgid g h = Some v ->
  exists gs, mapM (vgid g) (ord h (uniq_adj h hs)) = Some gs /\ NoDup gs /\ forall w, In w gs <-> In w nb /\ w <> v.
Proof.
  intros HO E Hv. assert (Hin : forall x, In x (ord h (uniq_adj h hs)) <-> In x hs /\ x <> h).
  { intros x. split.
    - intros X. apply (Permutation_in _ (HO _ _)) in X. unfold uniq_adj in X. apply in_remove in X as (X & N). apply nodup_In in X. auto.
    - intros (X & N). apply (Permutation_in _ (Permutation_sym (HO _ _))). unfold uniq_adj. apply in_in_remove; auto. now apply nodup_In. }
  assert (Hsome : forall x, In x (ord h (uniq_adj h hs)) -> vgid g x = Some (match vgid g x with Some v => v | None => 0%Z end)).
  { intros x Hx. apply Hin in Hx as (Hx & _). apply In_nth_error in Hx as (k & Hk). destruct (mapM_nth _ _ _ _ _ _ _ E Hk) as (y & _ & B). now rewrite B. }
  eexists. split; [apply mapM_some, Hsome|]. pose proof (mapM_some _ _ _ _ _ Hsome) as EM. split.
  - apply (mapM_inj_nodup _ _ EM). apply (Permutation_NoDup (Permutation_sym (HO _ _))). unfold uniq_adj.
    assert (ND : NoDup (nodup Nat.eq_dec hs)) by apply NoDup_nodup. revert ND. generalize (nodup Nat.eq_dec hs). clear. induction l as [|a l IH]; intros ND; cbn; [constructor|].
    inversion ND; subst. destruct (Nat.eq_dec h a); auto. constructor; auto. intros X. apply in_remove in X. tauto.
  - intros w. rewrite (mapM_in_iff _ _ w EM), (mapM_in_iff _ _ w E). split.
    + intros (x & Hx & Hw). apply Hin in Hx as (Hx & N). split; eauto. intros ->. apply N. eapply vgid_inj; eauto.
    + intros ((x & Hx & Hw) & N). exists x. split; auto. apply Hin. split; auto. intros ->. congruence.
Qed.
End V.
