(** Property C33: files are big-endian on every host and round-trip between any two hosts. *)
From Verif Require Import Base PcuMsgModel PcuMsgProofs PcuIOModel.

Lemma le_length k w : length (le_bytes k w) = k.
Proof. revert w. induction k; simpl; auto. Qed.
Lemma store_length h k w : length (store h k w) = k.
Proof. destruct h; simpl; [|rewrite rev_length]; apply le_length. Qed.
Lemma of_le_bytes k : forall w, (0 <= w < 256 ^ Z.of_nat k)%Z -> of_le (le_bytes k w) = w.
Proof.
  induction k as [|k IH]; intros w H.
  - simpl in *. lia.
  - cbn [le_bytes of_le]. rewrite Z2Nat.id by (apply Z.mod_pos_bound; lia).
    rewrite IH.
    + pose proof (Z.div_mod w 256). lia.
    + rewrite Nat2Z.inj_succ, Z.pow_succ_r in H by lia. split; [apply Z.div_pos; lia|]. apply Z.div_lt_upper_bound; lia.
Qed.
Lemma fetch_store h k w : (0 <= w < 256 ^ Z.of_nat k)%Z -> fetch h (store h k w) = w.
Proof. intros H. destruct h; simpl; [|rewrite rev_involutive]; now apply of_le_bytes. Qed.

Lemma swap_32_rev m : length m = 4 -> swap_32 m = Some (rev m).
Proof. destruct m as [|a [|b [|c [|d [|e m]]]]]; try discriminate. reflexivity. Qed.
Lemma swap_64_rev m : length m = 8 -> swap_64 m = Some (rev m).
Proof. destruct m as [|a [|b [|c [|d [|e [|f [|g [|i [|j m]]]]]]]]]; try discriminate. reflexivity. Qed.

Section Words.
Variable k : nat.
Variable sw : list byte -> option (list byte).
Hypothesis Hsw : forall m, length m = k -> sw m = Some (rev m).

Lemma swap_blocks (bs : list (list byte)) rest : (forall b, In b bs -> length b = k) ->
  swap_words k sw (length bs) (concat bs ++ rest) = Some (concat (map (@rev byte) bs)).
Proof.
  induction bs as [|b bs IH]; intros H; simpl; auto.
  assert (L : length b = k) by (apply H; simpl; auto). rewrite <- L, <- app_assoc, firstn_app_exact, skipn_app_exact.
  rewrite Hsw by auto. cbn [obind]. rewrite L, IH by (intros; apply H; simpl; auto). reflexivity.
Qed.
Lemma unwords_words h ws : (forall w, In w ws -> (0 <= w < 256 ^ Z.of_nat k)%Z) ->
  unwords h k (length ws) (words h k ws) = ws.
Proof.
  unfold words. induction ws as [|w ws IH]; intros H; simpl; auto.
  assert (E1 : firstn k (store h k w ++ concat (map (store h k) ws)) = store h k w).
  { rewrite <- (store_length h k w) at 1. apply firstn_app_exact. }
  assert (E2 : skipn k (store h k w ++ concat (map (store h k) ws)) = concat (map (store h k) ws)).
  { rewrite <- (store_length h k w) at 1. apply skipn_app_exact. }
  rewrite E1, E2, fetch_store by (apply H; simpl; auto). f_equal. apply IH. intros; apply H; simpl; auto.
Qed.
Lemma write_words_big h f ws : write_words h k sw f ws = Some (f ++ concat (map (store Big k) ws)).
Proof.
  unfold write_words, fwrite, words. destruct h; cbn [must_swap endianness]; change (must_swap Little) with true; change (must_swap Big) with false.
  - cbn iota. pose proof (swap_blocks (map (store Little k) ws) []) as E. rewrite map_length, app_nil_r in E.
    rewrite E; [cbn [obind]; now rewrite map_map|].
    intros b Hb. apply in_map_iff in Hb as (w & <- & _). apply store_length.
  - reflexivity.
Qed.
Lemma read_words_big h ws rest : (forall w, In w ws -> (0 <= w < 256 ^ Z.of_nat k)%Z) ->
  read_words h k sw (concat (map (store Big k) ws) ++ rest) (length ws) = Some (ws, rest).
Proof.
  intros H. unfold read_words, fread.
  assert (L : length (concat (map (store Big k) ws)) = k * length ws).
  { clear H. induction ws as [|w ws IH]; simpl; [lia|]. rewrite app_length, rev_length, le_length. lia. }
  rewrite <- L, app_length. destruct (Nat.ltb_spec (length (concat (map (store Big k) ws)) + length rest) (length (concat (map (store Big k) ws)))); [lia|].
  cbn [obind]. rewrite firstn_app_exact, skipn_app_exact.
  destruct h; change (must_swap Little) with true; change (must_swap Big) with false; cbn iota.
  - pose proof (swap_blocks (map (store Big k) ws) []) as E. rewrite map_length, app_nil_r in E. rewrite E.
    + cbn [obind]. rewrite map_map. erewrite (map_ext _ (store Little k)).
      2:{ intros w. simpl. apply rev_involutive. }
      now rewrite unwords_words.
    + intros b Hb. apply in_map_iff in Hb as (w & <- & _). apply store_length.
  - cbn [obind]. now rewrite (unwords_words Big).
Qed.
End Words.

Lemma strlen_app (s rest : list byte) : (forall c, In c s -> c <> 0) -> strlen (s ++ 0 :: rest) = Some (length s).
Proof.
  induction s as [|c s IH]; intros H; simpl; auto. destruct c; [exfalso; apply (H 0); simpl; auto|].
  rewrite IH by (intros; apply H; simpl; auto). reflexivity.
Qed.
Lemma read_loop (s rest : list byte) : (forall c : byte, In c s -> c <> 0) -> forall fuel b c, holds b c -> length s < fuel ->
  exists b', read_string_loop fuel b (s ++ 0 :: rest) = Some (b', rest) /\ holds b' (c ++ s ++ [0]).
Proof.
  induction s as [|x s IH]; intros H fuel b c Hb Hf; destruct fuel as [|fuel]; [simpl in Hf; lia| |simpl in Hf; lia|];
    cbn [read_string_loop app].
  - destruct (push_write b c [0] Hb) as (b1 & off & m & E1 & E2 & H2). simpl in E1. rewrite E1.
    unfold fread. cbn [length Nat.ltb Nat.leb firstn skipn obind].
    assert (Eo : b_size b1 - 1 = off).
    { clear -E1. unfold push_buffer in E1. destruct (b_cap b <? b_size b + 1); inversion E1; reflexivity. }
    rewrite Eo, E2. cbn [obind]. eexists. split; [reflexivity|]. exact H2.
  - destruct (push_write b c [x] Hb) as (b1 & off & m & E1 & E2 & H2). simpl in E1. rewrite E1.
    unfold fread. cbn [length Nat.ltb Nat.leb firstn skipn obind].
    assert (Eo : b_size b1 - 1 = off).
    { clear -E1. unfold push_buffer in E1. destruct (b_cap b <? b_size b + 1); inversion E1; reflexivity. }
    rewrite Eo, E2. cbn [obind]. destruct x as [|x]; [exfalso; apply (H 0); simpl; auto|].
    destruct (IH ltac:(intros; apply H; simpl; auto) fuel _ _ H2) as (b' & E & H'); [simpl in Hf; lia|].
    exists b'. split; [exact E|]. now rewrite <- app_assoc in H'.
Qed.
Lemma read_string_ok (s rest : list byte) : (forall c, In c s -> c <> 0) -> read_string (s ++ 0 :: rest) = Some (s ++ [0], rest).
Proof.
  intros H. unfold read_string.
  destruct (read_loop s rest H (S (length (s ++ 0 :: rest))) make_buffer []) as (b & E & (tail & Hm & Hs)).
  - exists []. auto.
  - rewrite app_length. simpl. lia.
  - rewrite E. cbn [obind]. simpl in Hm, Hs. rewrite Hs, Hm.
    unfold realloc. rewrite firstn_app, ainit_length, Nat.sub_diag. simpl (firstn 0 tail).
    rewrite app_nil_r. rewrite firstn_all2 by (rewrite ainit_length; lia).
    pose proof (read_at_split [] (s ++ [0]) (anew (length (s ++ [0]) - length (ainit (s ++ [0]) ++ tail)))) as R. simpl in R.
    rewrite R. reflexivity.
Qed.

(** Well-formed records: words in range; strings are nonzero characters and a terminator. *)
Definition item_ok (x : item) : Prop :=
  match x with
  | Unsigneds ws => forall w, In w ws -> (0 <= w < 2 ^ 32)%Z
  | Doubles ws => forall w, In w ws -> (0 <= w < 2 ^ 64)%Z
  | Str s => exists chars, s = chars ++ [0] /\ forall c, In c chars -> c <> 0
  end.

(** What the file holds: most significant byte first. *)
Fixpoint big_endian (k : nat) (w : Z) : list byte :=
  match k with 0 => [] | S k' => Z.to_nat (w / 256 ^ Z.of_nat k' mod 256) :: big_endian k' w end.
Definition encoded (x : item) : list byte :=
  match x with
  | Unsigneds ws => concat (map (big_endian 4) ws)
  | Doubles ws => concat (map (big_endian 8) ws)
  | Str s => s
  end.
Lemma le_nth k : forall w, le_bytes k w = map (fun i => Z.to_nat (w / 256 ^ Z.of_nat i mod 256)) (seq 0 k).
Proof.
  induction k as [|k IH]; intros w; [reflexivity|]. cbn [le_bytes seq map]. f_equal.
  - now rewrite Z.pow_0_r, Z.div_1_r.
  - rewrite IH, <- seq_shift, map_map. apply map_ext. intros i.
    rewrite Nat2Z.inj_succ, Z.pow_succ_r by lia. rewrite Z.div_div by lia. reflexivity.
Qed.
Lemma big_endian_store k w : store Big k w = big_endian k w.
Proof.
  simpl. rewrite le_nth. induction k as [|k IH]; [reflexivity|].
  rewrite seq_snoc, map_app, rev_app_distr. cbn [map rev app big_endian Nat.add]. f_equal. exact IH.
Qed.

(** The bytes written do not depend on the host and are big endian. *)
Theorem C33_big_endian : forall h f x, item_ok x -> write_item h f x = Some (f ++ encoded x).
Proof.
  intros h f [ws|ws|s] H; cbn [write_item encoded].
  - unfold write_unsigneds. rewrite write_words_big by apply swap_32_rev. do 3 f_equal. apply map_ext, big_endian_store.
  - unfold write_doubles. rewrite write_words_big by apply swap_64_rev. do 3 f_equal. apply map_ext, big_endian_store.
  - destruct H as (c & -> & Hc). unfold write_string. pose proof (strlen_app c [] Hc) as Es.
    rewrite Es. cbn [obind].
    unfold fwrite. rewrite firstn_all2; [reflexivity|]. rewrite app_length. simpl. lia.
Qed.

(** Any sequence of records written on host h and read on host h' comes back unchanged, and
    exactly the written bytes are consumed. *)
Theorem C33_roundtrip : forall h h' items f0, (forall x, In x items -> item_ok x) ->
  exists f, foldM (write_item h) items f0 = Some f /\
    forall rest, read_items h' (skipn (length f0) f ++ rest) items = Some (items, rest).
Proof.
  intros h h' items f0 H.
  assert (W : foldM (write_item h) items f0 = Some (f0 ++ concat (map encoded items))).
  { revert f0 H. induction items as [|x items IH]; intros f0 H; simpl; [now rewrite app_nil_r|].
    rewrite C33_big_endian by (apply H; simpl; auto). cbn [obind]. rewrite IH by (intros; apply H; simpl; auto).
    now rewrite <- app_assoc. }
  exists (f0 ++ concat (map encoded items)). split; [exact W|]. intros rest. rewrite skipn_app_exact. clear W f0.
  induction items as [|x items IH]; [reflexivity|]. cbn [map concat read_items]. rewrite <- app_assoc.
  assert (R : read_item h' (encoded x ++ concat (map encoded items) ++ rest) x = Some (x, concat (map encoded items) ++ rest)).
  { specialize (H x (or_introl eq_refl)). destruct x as [ws|ws|s]; cbn [read_item encoded item_ok] in *.
    - unfold read_unsigneds. rewrite (map_ext (big_endian 4) (store Big 4)) by (intros; symmetry; apply big_endian_store).
      rewrite read_words_big; [reflexivity|apply swap_32_rev|exact H].
    - unfold read_doubles. rewrite (map_ext (big_endian 8) (store Big 8)) by (intros; symmetry; apply big_endian_store).
      rewrite read_words_big; [reflexivity|apply swap_64_rev|exact H].
    - destruct H as (c & -> & Hc). rewrite <- app_assoc. simpl app at 1.
      change ([0] ++ concat (map encoded items) ++ rest) with (0 :: concat (map encoded items) ++ rest).
      match goal with |- context [read_string ?a] => change (read_string a) with (read_string (c ++ 0 :: (concat (map encoded items) ++ rest))) end.
      rewrite read_string_ok by auto. reflexivity. }
  rewrite R. cbn [obind]. rewrite IH by (intros; apply H; simpl; auto). reflexivity.
Qed.

(** Reading past the end of the file fails instead of returning garbage. *)
Theorem C33_short_file : forall h f n, length f < 4 * n -> read_unsigneds h f n = None.
Proof. intros h f n H. unfold read_unsigneds, read_words, fread. destruct (Nat.ltb_spec (length f) (4 * n)); [reflexivity|lia]. Qed.

Example C33_example :
  foldM (write_item Little) [Unsigneds [258%Z; 4294967295%Z]; Str [104; 105; 0]; Doubles [4607182418800017408%Z]] []
  = Some [0;0;1;2; 255;255;255;255; 104;105;0; 63;240;0;0;0;0;0;0].
Proof. vm_compute. reflexivity. Qed.

Print Assumptions C33_big_endian.
Print Assumptions C33_roundtrip.
Print Assumptions C33_short_file.
