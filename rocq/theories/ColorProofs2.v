(** Loading the graph for the parallel edge adjacency. *)
From Verif Require Import Base GraphModel GraphSpec CsrProofs ConstructProofs AccessProofs GraphTop SecondAdjModel ColorModel ColorProofs.

Lemma count_keys_gen (k : nat) : forall (l : list (nat * nat)), nsum (map (fun u => cnt_of u l) (seq 0 k)) = length (filter (fun p => fst p <? k) l).
Proof.
  induction l as [|[a b] l IH].
  - cbn. induction (seq 0 k) as [|u s IHs]; cbn; auto.
  - cbn [filter fst]. assert (G : forall s, NoDup s -> nsum (map (fun u => cnt_of u ((a, b) :: l)) s) = nsum (map (fun u => cnt_of u l) s) + if existsb (Nat.eqb a) s then 1 else 0).
    { induction s as [|u s IHs]; intros N; [reflexivity|]. inversion N as [|? ? NI N']; subst. specialize (IHs N'). cbn [map existsb]. unfold nsum in *. cbn [fold_right]. rewrite IHs.
      unfold cnt_of, vals_of. cbn [filter fst]. destruct (Nat.eqb_spec a u) as [->|NE]; cbn [orb map length]; [|lia]. replace (existsb (Nat.eqb u) s) with false; [lia|]. symmetry. apply Bool.not_true_is_false. intros X. apply existsb_exists in X as (y & Y & E). apply Nat.eqb_eq in E. now subst. }
    rewrite G by apply seq_NoDup. rewrite IH. destruct (Nat.ltb_spec a k) as [L|L].
    + replace (existsb (Nat.eqb a) (seq 0 k)) with true; [cbn [length]; lia|]. symmetry. apply existsb_exists. exists a. split; [apply in_seq; lia|apply Nat.eqb_refl].
    + replace (existsb (Nat.eqb a) (seq 0 k)) with false; [lia|]. symmetry. apply Bool.not_true_is_false. intros X. apply existsb_exists in X as (y & Y & E). apply Nat.eqb_eq in E. apply in_seq in Y. lia.
Qed.
Lemma occs_len n all i pss : length (occs true n all i pss) = length (filter (fun v => idx all v <? n) (concat pss)).
Proof.
  revert i. induction pss as [|ps pss IH]; intros i; [reflexivity|]. cbn [occs concat]. rewrite filter_app, !app_length, IH. f_equal. unfold locc.
  induction ps as [|v ps IHp]; [reflexivity|]. cbn [map filter fst]. destruct (idx all v <? n); cbn; auto.
Qed.
Lemma filter_len A (f : A -> bool) l : length (filter f l) <= length l.
Proof. induction l as [|x l IH]; cbn; [lia|]. destruct (f x); cbn; lia. Qed.
Lemma filter_len_lt A (f : A -> bool) l x : In x l -> f x = false -> length (filter f l) < length l.
Proof. induction l as [|y l IH]; intros I E; [destruct I|]. destruct I as [->|I]; cbn; [rewrite E; pose proof (filter_len _ f l); lia|]. specialize (IH I E). destruct (f y); cbn; lia. Qed.

Lemma mapM_read (f : nat -> option nat) row : forall a, (forall m x, nth_error row m = Some x -> f (a + m) = Some x) -> mapM f (seq a (length row)) = Some row.
Proof.
  induction row as [|y row IH]; intros a H; [reflexivity|]. cbn [length seq mapM]. rewrite <- (Nat.add_0_r a) at 1. rewrite (H 0 y eq_refl). cbn [obind].
  rewrite IH; [reflexivity|]. intros m x Hm. replace (S a + m) with (a + S m) by lia. now apply H.
Qed.
Lemma mapM_none X Y (f : X -> option Y) l x : In x l -> f x = None -> mapM f l = None.
Proof. induction l as [|y l IH]; intros I E; [destruct I|]. destruct I as [->|I]; cbn [mapM]; [now rewrite E|]. destruct (f y); auto. cbn. now rewrite IH. Qed.

Section Load.
Variables (me : Z) (verts vws : list Z) (tys : list type_input) (g : graph).
Hypothesis HC : constructed me true verts vws tys g.
Variables (t : nat) (es : list edge_input) (ws : list Z).
Hypothesis Ht : nth_error tys t = Some (es, ws).
Notation all := (verts ++ ghosts_of verts tys).
Notation HR := (proj1 (constructed_rep _ _ _ _ _ _ HC)).
Notation occ := (occ_of g verts (ghosts_of verts tys) es).
Notation HT := (nth_eff _ _ _ _ Ht).
Notation L := (concat (map (fun u => vals_of u occ) (seq 0 (length verts)))).

Lemma list_len : length L = off occ (length verts).
Proof. rewrite length_concat, map_map. reflexivity. Qed.
Lemma local_idx v : In v all -> (idx all v <? length verts) = true <-> In v verts.
Proof.
  intros I. rewrite Nat.ltb_lt. split.
  - intros X. pose proof (idx_nth all v I) as E. rewrite nth_error_app1 in E by auto. eapply nth_error_In; eauto.
  - intros X. rewrite idx_app by auto. apply idx_lt; auto.
Qed.
Lemma pins_in v : In v (concat (epins_of es)) -> In v all.
Proof. intros I. apply (c_incl _ _ _ _ _ _ HC t es ws Ht). exact I. Qed.
Lemma occ_len : off occ (length verts) = length (filter (fun v => idx all v <? length verts) (concat (epins_of es))).
Proof.
  unfold off. rewrite count_keys_gen. unfold occ_of. rewrite (c_hyper _ _ _ _ _ _ HC). rewrite <- (occs_len (length verts) all 0). f_equal.
  generalize 0. induction (epins_of es) as [|ps l IH]; intros i; [reflexivity|]. cbn [occs]. rewrite filter_app, IH. f_equal. unfold locc.
  induction ps as [|v ps IHp]; [reflexivity|]. cbn [map filter fst]. destruct (idx all v <? length verts) eqn:E; auto. cbn [filter fst]. rewrite E. now f_equal.
Qed.
Lemma load_deg ed : EdRep (hyper g) (length verts) all es (eff_wgts ws (length es)) ed -> toDevice (nlv g + 1) (e_deg ed) = Some (map (off occ) (seq 0 (length verts + 1))).
Proof.
  intros HE. unfold toDevice. rewrite (rp_nlv _ _ _ _ _ HR). apply mapM_some. intros k Hk. apply in_seq in Hk. apply (er_deg _ _ _ _ _ _ HE). lia.
Qed.
Lemma load_list ed : EdRep (hyper g) (length verts) all es (eff_wgts ws (length es)) ed -> (forall e v, In e es -> In v (snd e) -> In v verts) -> toDevice (e_npins ed) (e_list ed) = Some L.
Proof.
  intros HE LOC. assert (LL : length L = e_npins ed).
  { rewrite list_len, occ_len, (er_npins _ _ _ _ _ _ HE). f_equal. assert (G : forall l, (forall v, In v l -> In v verts) -> filter (fun v => idx all v <? length verts) l = l).
    { induction l as [|v l IH]; intros H; [reflexivity|]. cbn [filter]. rewrite (proj2 (local_idx v (in_or_app _ _ _ (or_introl (H v (or_introl eq_refl)))))) by (apply H; cbn; auto). f_equal. apply IH. intros; apply H; cbn; auto. }
    apply G. intros v Hv. apply in_concat in Hv as (ps & Hps & Hv). apply in_map_iff in Hps as (e & <- & He). eauto. }
  unfold toDevice. rewrite (er_list _ _ _ _ _ _ HE). fold occ. rewrite <- LL. clear. generalize L. intros l. apply mapM_read. intros m x H. now rewrite aget_ainit.
Qed.
Lemma load_list_ghost ed : EdRep (hyper g) (length verts) all es (eff_wgts ws (length es)) ed -> (exists e v, In e es /\ In v (snd e) /\ ~ In v verts) -> toDevice (e_npins ed) (e_list ed) = None.
Proof.
  intros HE (e & v & He & Hv & NV). assert (IC : In v (concat (epins_of es))) by (apply in_concat; exists (snd e); split; auto; apply in_map_iff; eauto).
  assert (LL : length L < e_npins ed).
  { rewrite list_len, occ_len, (er_npins _ _ _ _ _ _ HE). eapply filter_len_lt; eauto. apply Bool.not_true_is_false. rewrite local_idx by (now apply pins_in). exact NV. }
  unfold toDevice. apply (mapM_none _ _ _ _ (length L)); [apply in_seq; lia|]. rewrite (er_list _ _ _ _ _ _ HE). fold occ. rewrite aget_ainit. apply nth_error_None. lia.
Qed.
Lemma load_row v w : nth_error verts v = Some w -> row_pairs (map (off occ) (seq 0 (length verts + 1))) L v =
  Some (flat_map (fun a => map (fun b => (a, b)) (filter (fun b => negb (a =? b)) (incident w es))) (incident w es)).
Proof.
  intros H. assert (Lv : v < length verts) by (apply nth_error_Some; congruence). unfold row_pairs.
  rewrite !nth_error_map. rewrite !(nth_error_nth' (seq 0 (length verts + 1)) 0) by (rewrite seq_length; lia). rewrite !seq_nth by lia. cbn [option_map obind].
  rewrite <- (vals_incident _ _ _ _ _ _ HC t es ws v w eq_refl Ht H). cbn [Nat.add].
  replace (off occ (v + 1) - off occ v) with (length (vals_of v occ)).
  - rewrite mapM_read; [reflexivity|]. intros m x Hm. unfold off. apply (concat_row _ (fun u => vals_of u occ) (length verts) v m x Lv Hm).
  - unfold off. rewrite Nat.add_1_r, seq_S, map_app, nsum_app. cbn [map Nat.add]. unfold nsum at 2. cbn [fold_right]. unfold cnt_of at 2. lia.
Qed.
Lemma load_pairs : mapM (row_pairs (map (off occ) (seq 0 (length verts + 1))) L) (seq 0 (length verts)) =
  Some (map (fun w => flat_map (fun a => map (fun b => (a, b)) (filter (fun b => negb (a =? b)) (incident w es))) (incident w es)) verts).
Proof.
  erewrite mapM_some with (h := fun v => match nth_error verts v with Some w => flat_map (fun a => map (fun b => (a, b)) (filter (fun b => negb (a =? b)) (incident w es))) (incident w es) | None => [] end).
  - f_equal. apply nth_error_ext. intros i. rewrite !nth_error_map. destruct (nth_error verts i) as [w|] eqn:E.
    + rewrite (nth_error_nth' _ 0) by (rewrite seq_length; apply nth_error_Some; congruence). rewrite seq_nth by (apply nth_error_Some; congruence). cbn. now rewrite E.
    + rewrite (proj2 (nth_error_None _ _)); auto. rewrite seq_length. now apply nth_error_None.
  - intros v Hv. apply in_seq in Hv. destruct (nth_error verts v) as [w|] eqn:E; [now apply load_row|]. apply nth_error_None in E. lia.
Qed.
End Load.
