(** Property C67: PCU_Comm_Write / PCU_Comm_Read and the PCU_Comm_Receive loop; PCU_Comm_Packed;
    PCU_Or and PCU_And. *)
From Verif Require Import Base PcuAAModel PcuAAProofs PcuMsgModel PcuMsgProofs PcuMsgProps PcuRwModel PcuRwSpec PcuRwProofs.
From Verif Require Import PcuCollModel PcuCollTop PcuCollExec PcuCollProps.
From Coq Require Import Sorted.

(* ------------------------------------------------------------------ *)
(** ** From what was packed to what arrives *)
Lemma network_in n sent d f bytes : In (f, bytes) (network n sent d) ->
  exists q, q < n /\ f = Z.of_nat q /\ In (Z.of_nat d, bytes) (sent q).
Proof.
  unfold network. intros H. apply in_flat_map in H as (q & Hq & H). apply in_seq in Hq.
  apply in_map_iff in H as (x & E & H). inversion E; subst. exists q. split; [lia|]. split; auto.
  unfold for_key in H. apply in_map_iff in H as ([to y] & E1 & H). apply filter_In in H as (H & E2). simpl in *.
  apply Z.eqb_eq in E2. subst. exact H.
Qed.
Lemma network_has n sent d q bytes : q < n -> In (Z.of_nat d, bytes) (sent q) ->
  In (Z.of_nat q, bytes) (network n sent d).
Proof.
  intros Hq H. unfold network. apply in_flat_map. exists q. split; [apply in_seq; lia|].
  apply in_map_iff. exists bytes. split; auto. unfold for_key. apply in_map_iff. exists (Z.of_nat d, bytes). split; auto.
  apply filter_In. split; auto. simpl. apply Z.eqb_refl.
Qed.
Lemma for_key_le_1 {A} d (l : list (Z * A)) : NoDup (map fst l) -> length (for_key d l) <= 1.
Proof.
  intros N. unfold for_key. rewrite map_length. induction l as [|[k a] l IH]; simpl; auto.
  inversion N as [|? ? N1 N2]; subst. destruct (Z.eqb_spec k (Z.of_nat d)) as [->|]; auto. simpl.
  assert (E : filter (fun o : Z * A => Z.eqb (fst o) (Z.of_nat d)) l = []).
  { destruct (filter _ l) as [|[k' a'] r] eqn:F; auto. exfalso. apply N1.
    assert (I : In (k', a') (filter (fun o : Z * A => Z.eqb (fst o) (Z.of_nat d)) l)) by (rewrite F; now left).
    apply filter_In in I as (I & E). simpl in E. apply Z.eqb_eq in E. subst. apply in_map_iff. exists (Z.of_nat d, a'). auto. }
  rewrite E. simpl. lia.
Qed.
Lemma network_nodup n sent d : (forall q, q < n -> NoDup (map fst (sent q))) -> NoDup (map fst (network n sent d)).
Proof.
  intros H. unfold network. assert (G : forall l, NoDup l -> (forall q, In q l -> q < n) ->
    NoDup (map fst (flat_map (fun q => map (fun bytes => (Z.of_nat q, bytes)) (for_key d (sent q))) l))).
  { induction l as [|q l IH]; intros N B; simpl; [constructor|]. inversion N; subst. rewrite map_app, map_map.
    apply NoDup_app_iff. split; [|split].
    - cbn [fst]. pose proof (for_key_le_1 d (sent q) (H q (B q (or_introl eq_refl)))) as L.
      destruct (for_key d (sent q)) as [|x [|y r]]; simpl in *; [constructor|constructor; [intros []|constructor]|lia].
    - apply IH; auto. intros. apply B. now right.
    - intros z A C. apply in_map_iff in A as (x & <- & _). cbn [fst] in C.
      apply in_map_iff in C as ([f y] & E & C). simpl in E. apply in_flat_map in C as (q' & Hq' & C).
      apply in_map_iff in C as (y' & E' & _). inversion E'; subst. apply Nat2Z.inj in H1. subst. contradiction. }
  apply G; [apply seq_NoDup|]. intros q Hq. apply in_seq in Hq. lia.
Qed.

Lemma for_key_app {A} d (l k : list (Z * A)) : for_key d (l ++ k) = for_key d l ++ for_key d k.
Proof. unfold for_key. now rewrite filter_app, map_app. Qed.

Section Deliver.
Context {X : Type}.
Variable b : body X.
Variable enc : X -> list byte.
Variable ok : X -> Prop.
Hypothesis parses : forall x rest, ok x -> parse b (enc x ++ rest) = Some (x, rest).
Hypothesis nonempty : forall x, ok x -> enc x <> [].
Variable d : nat.
Variable recs : nat -> list X.

Definition typed (ms : list (Z * list byte)) : list (Z * list X) := map (fun m => (fst m, recs (Z.to_nat (fst m)))) ms.
Lemma typed_wire ms : (forall m, In m ms -> snd m = concat (map enc (recs (Z.to_nat (fst m))))) -> wire enc (typed ms) = ms.
Proof.
  intros H. unfold wire, typed. rewrite map_map. cbn [fst snd]. induction ms as [|m ms IH]; auto. cbn [map].
  rewrite IH by (intros; apply H; now right). f_equal. destruct m as [f y]. cbn [fst]. f_equal. symmetry.
  etransitivity; [exact (H (f, y) (or_introl eq_refl))|]. reflexivity.
Qed.

Lemma all_of_key q ms : NoDup (map fst ms) ->
  for_key q (all_of (typed ms)) = if existsb (Z.eqb (Z.of_nat q)) (map fst ms) then recs q else [].
Proof.
  induction ms as [|[f y] ms IH]; intros N; auto. inversion N as [|? ? N1 N2]; subst. cbn [map fst existsb] in *.
  change (all_of (typed ((f, y) :: ms))) with (tagged f (recs (Z.to_nat f)) ++ all_of (typed ms)).
  rewrite for_key_app, IH by exact N2. unfold for_key.
  assert (T : forall xs : list X, map snd (filter (fun o => Z.eqb (fst o) (Z.of_nat q)) (tagged f xs))
     = if Z.eqb (Z.of_nat q) f then xs else []).
  { induction xs as [|x xs IHx]; cbn [tagged map filter fst]; [now destruct (Z.eqb _ _)|].
    fold (tagged f xs). rewrite (Z.eqb_sym f). destruct (Z.eqb (Z.of_nat q) f); cbn [map snd]; rewrite IHx; reflexivity. }
  rewrite T. destruct (Z.eqb_spec (Z.of_nat q) f) as [E|E]; cbn [orb].
  - subst f. rewrite Nat2Z.id.
    destruct (existsb (Z.eqb (Z.of_nat q)) (map fst ms)) eqn:Ex; [|apply app_nil_r].
    exfalso. apply N1. apply existsb_exists in Ex as (z & Hz & Ez). apply Z.eqb_eq in Ez. now subst.
  - reflexivity.
Qed.

Lemma reads_all ordered arrivals : NoDup (map fst arrivals) ->
  (forall m, In m arrivals -> snd m = concat (map enc (recs (Z.to_nat (fst m))))) ->
  (forall q x, In x (recs q) -> ok x) ->
  exists fuel s' ms, receive_loop fuel b (start_reading ordered arrivals) = Some (s', all_of (typed ms)) /\
    phase_over s' /\ Permutation ms arrivals /\
    (ordered = true -> StronglySorted (fun a c => (fst a < fst c)%Z) ms).
Proof.
  intros N E K.
  assert (D : exists ms, delivers (start_reading ordered arrivals) ms /\ Permutation ms arrivals /\
              (ordered = true -> StronglySorted (fun a c => (fst a < fst c)%Z) ms) /\
              (forall bf, buffer_walked bf = true -> delivers (with_buf (start_reading ordered arrivals) bf) ms)).
  { destruct ordered.
    - destruct (C32_ordered arrivals (S (length arrivals)) N ltac:(lia)) as (ms & L & P & So).
      assert (G : forall bf, delivers (with_buf (start_reading true arrivals) bf) ms).
      { intros bf. eapply delivers_order; [reflexivity|right; reflexivity|exact L]. }
      exists ms. split; [rewrite <- (with_buf_id (start_reading true arrivals)); apply G|]. auto.
    - exists arrivals. split; [apply delivers_net; reflexivity|]. split; [apply Permutation_refl|]. split; [discriminate|].
      intros bf W. apply delivers_net; auto. }
  destruct D as (ms & _ & P & So & D).
  assert (C : cur enc ok (start_reading ordered arrivals) [] (typed ms)).
  { split; [exists []; split; reflexivity|]. split; [auto|]. split.
    - intros bf W. rewrite typed_wire by (intros m Hm; apply E; eapply Permutation_in; eauto). auto.
    - split; [intros x []|]. intros m x Hm. unfold typed in Hm. apply in_map_iff in Hm as (a & <- & _). cbn [snd]. apply K. }
  destruct (loop_reads b enc ok parses nonempty (S (left_over (X:=X) [] (typed ms))) _ _ _ C (Nat.lt_succ_diag_r _)) as (s' & L & F).
  exists (S (left_over (X:=X) [] (typed ms))), s', ms. split; [exact L|]. auto.
Qed.
Lemma all_of_sorted ms : StronglySorted (fun a c : Z * list byte => (fst a < fst c)%Z) ms ->
  StronglySorted (fun a c : Z * X => (fst a <= fst c)%Z) (all_of (typed ms)).
Proof.
  induction 1 as [|m ms Hs IH F]; [constructor|]. unfold all_of. cbn [typed map flat_map fst snd].
  fold (typed ms). change (flat_map (fun m => tagged (fst m) (snd m)) (typed ms)) with (all_of (typed ms)).
  assert (G : Forall (fun c : Z * X => (fst m <= fst c)%Z) (all_of (typed ms))).
  { apply Forall_forall. intros c Hc. apply in_flat_map in Hc as (a & Ha & Hc). apply in_map_iff in Ha as (m' & <- & Ha).
    unfold tagged in Hc. apply in_map_iff in Hc as (x & <- & _). cbn [fst snd].
    rewrite Forall_forall in F. specialize (F _ Ha). simpl in F. lia. }
  generalize (recs (Z.to_nat (fst m))) as xs. induction xs as [|x xs IHx]; [exact IH|]. cbn [tagged map app].
  constructor; [exact IHx|]. apply Forall_app. split; [|exact G].
  apply Forall_forall. intros c Hc. unfold tagged in Hc. apply in_map_iff in Hc as (y & <- & _). cbn [fst]. lia.
Qed.
End Deliver.

(* ------------------------------------------------------------------ *)
(** ** C67 *)

(** A phase of n ranks.  Rank q packs any pieces for any ranks, so that what it packs for rank d
    is, as a string of bytes, the concatenation of the encodings of the records [recs q d]; the
    encoding is one that the body of the receiving loop reads back (whatever follows), and no
    record is empty.  If no message exceeds INT_MAX bytes all packing and sending succeeds; and then on every rank d, for every order in which
    the messages arrive and with PCU_Comm_Order on or off, the loop
    while (PCU_Comm_Receive()) { PCU_Comm_Sender; unpack one record } ends without failure, having
    seen from every rank q exactly the records q packed for d, in the order they were packed, and
    nothing else; in the ordered mode the senders come in increasing order; listening again in the
    same phase is refused. *)
Theorem C67_receive_loop : forall (X : Type) (b : body X) (enc : X -> list byte) (ok : X -> Prop),
  (forall x rest, ok x -> parse b (enc x ++ rest) = Some (x, rest)) ->
  (forall x, ok x -> enc x <> []) ->
  forall n (packs : nat -> list (Z * list byte)) (recs : nat -> nat -> list X),
  (forall q to data, q < n -> In (to, data) (packs q) -> (0 <= to < Z.of_nat n)%Z) ->
  (forall q d, q < n -> d < n -> concat (for_key d (packs q)) = concat (map enc (recs q d))) ->
  (forall q d x, In x (recs q d) -> ok x) ->
  ((forall q d, q < n -> d < n -> (Z.of_nat (length (concat (for_key d (packs q)))) <= 2147483647)%Z) ->
     forall q, q < n -> exists p ms, pack_all n no_peers (packs q) = Some p /\ comm_send p = Some ms) /\
  forall sent, (forall q, q < n -> exists p, pack_all n no_peers (packs q) = Some p /\ comm_send p = Some (sent q)) ->
  forall d ordered arrivals, d < n -> Permutation arrivals (network n sent d) ->
  exists fuel s' got, receive_loop fuel b (start_reading ordered arrivals) = Some (s', got) /\
    (forall q, q < n -> for_key q got = recs q d) /\
    (forall f x, In (f, x) got -> (0 <= f < Z.of_nat n)%Z) /\
    (ordered = true -> StronglySorted (fun a c => (fst a <= fst c)%Z) got) /\
    listen s' = None.
Proof.
  intros X b enc ok Hp Hne n packs recs Hr He Hok. split.
  - intros Hi q Hq. destruct (C27_pack_send n (packs q)) as (p & E1 & E2); [intros; eapply Hr; eauto|].
    destruct (proj1 E2) as (ms & E3); [|eauto]. intros d.
    destruct (in_dec Z.eq_dec d (map fst (packs q))) as [I|I].
    + apply in_map_iff in I as ([k y] & Ek & I). simpl in Ek. subst k. pose proof (Hr q d y Hq I) as R.
      rewrite <- (Z2Nat.id d) by lia. apply (Hi q (Z.to_nat d)); lia.
    + pose proof (packed_for_none d (packs q) I) as Z0. unfold packed_for in Z0.
      etransitivity; [apply inj_le; rewrite Z0; apply le_n|]. cbn. lia.
  - intros sent Hs d ordered arrivals Hd P.
    assert (Sd : forall q, q < n -> NoDup (map fst (sent q)) /\
      (forall k, In k (map fst (sent q)) <-> exists data, In (k, data) (packs q)) /\
      (forall k bytes, In (k, bytes) (sent q) -> bytes = concat (map snd (filter (fun o => Z.eqb (fst o) k) (packs q))))).
    { intros q Hq. destruct (Hs q Hq) as (p & E1 & E2).
      apply (C27_sent n (packs q) p (sent q)); auto. intros; eapply Hr; eauto. }
    assert (N : NoDup (map fst arrivals)).
    { eapply Permutation_NoDup; [symmetry; apply Permutation_map; exact P|]. apply network_nodup. intros; now apply Sd. }
    destruct (reads_all b enc ok Hp Hne (fun q => recs q d) ordered arrivals N) as (fuel & s' & ms & L & F & Pm & Sm).
    + intros [f bytes] Hm. apply (Permutation_in _ P) in Hm. apply network_in in Hm as (q & Hq & -> & Hm).
      cbn [fst snd]. rewrite Nat2Z.id. destruct (Sd q Hq) as (_ & _ & S3). rewrite (S3 _ _ Hm). now apply He.
    + intros q x. apply Hok.
    + exists fuel, s', (all_of (typed (fun q => recs q d) ms)). split; [exact L|]. split; [|split; [|split]].
      * intros q Hq. rewrite all_of_key by (eapply Permutation_NoDup; [symmetry; apply Permutation_map; exact Pm|exact N]).
        destruct (existsb _ _) eqn:Ex; auto.
        destruct (Sd q Hq) as (_ & S2 & S3).
        assert (Z0 : for_key d (packs q) = []).
        { destruct (for_key d (packs q)) as [|y r] eqn:Fk; auto. exfalso.
          assert (I : In y (for_key d (packs q))) by (rewrite Fk; now left).
          unfold for_key in I. apply in_map_iff in I as ([to y'] & E1 & I). apply filter_In in I as (I & E2). simpl in *.
          apply Z.eqb_eq in E2. subst. assert (I2 : In (Z.of_nat d) (map fst (sent q))) by (apply S2; eauto).
          apply in_map_iff in I2 as ([k bytes] & E3 & I2). simpl in E3. subst k.
          apply network_has with (n := n) in I2; auto. apply (Permutation_in _ (Permutation_sym P)) in I2.
          apply (Permutation_in _ (Permutation_sym Pm)) in I2.
          apply not_true_iff_false in Ex. apply Ex. apply existsb_exists. exists (Z.of_nat q). split; [|apply Z.eqb_refl].
          apply in_map_iff. exists (Z.of_nat q, bytes). auto. }
        pose proof (He q d Hq Hd) as Hc. rewrite Z0 in Hc. destruct (recs q d) as [|x r] eqn:Er; auto.
        cbn [map concat] in Hc. symmetry in Hc. apply app_eq_nil in Hc as (Hc & _). exfalso.
        apply (Hne x); auto. apply (Hok q d). rewrite Er. now left.
      * intros f x I. unfold all_of in I. apply in_flat_map in I as (m & Hm & I).
        unfold typed in Hm. apply in_map_iff in Hm as (a & <- & Ha). unfold tagged in I. apply in_map_iff in I as (y & E & _).
        inversion E; subst. apply (Permutation_in _ Pm) in Ha. apply (Permutation_in _ P) in Ha. destruct a as [f bytes].
        apply network_in in Ha as (q & Hq & -> & _). cbn [fst]. lia.
      * intros Eo. apply all_of_sorted. auto.
      * apply F.
Qed.

Lemma for_key_flat {A} (g : A -> list (list byte)) d (l : list (Z * A)) :
  for_key d (flat_map (fun o => map (fun y => (fst o, y)) (g (snd o))) l) = flat_map g (for_key d l).
Proof.
  induction l as [|[k a] l IH]; auto. cbn [flat_map fst snd]. unfold for_key in *. rewrite filter_app, map_app, IH.
  cbn [filter fst]. destruct (Z.eqb k (Z.of_nat d)) eqn:E.
  - cbn [map snd flat_map]. f_equal. induction (g a) as [|y r IHr]; auto. cbn [map filter fst]. rewrite E. cbn [map snd]. now rewrite IHr.
  - replace (filter _ (map (fun y => (k, y)) (g a))) with (@nil (Z * list byte)); auto.
    induction (g a) as [|y r IHr]; auto. cbn [map filter fst]. now rewrite E.
Qed.
Lemma pieces_for d ops : concat (for_key d (pieces_of ops)) = concat (map frame (for_key d ops)).
Proof.
  unfold pieces_of. pose proof (for_key_flat (fun y : list byte => [encode size_bytes (Z.of_nat (length y)); y]) d ops) as E.
  cbn [map] in E. etransitivity; [apply f_equal; exact E|]. generalize (for_key d ops) as l.
  induction l as [|y l IH]; auto. cbn [flat_map app map concat]. unfold frame. rewrite IH, app_assoc. reflexivity.
Qed.

(** PCU_Comm_Write and PCU_Comm_Read: rank q writes messages [writes q] (destination, data of any
    size, also empty).  If the messages and their size fields for one rank stay within INT_MAX bytes all
    writes and sends succeed; and then on every rank d the loop
    while (PCU_Comm_Read(&from,&data,&size)) obtains, for every arrival order and either ordering
    mode, from every rank q exactly the messages q wrote to d, one by one and in the order they were
    written, and nothing else. *)
Theorem C67_write_read : forall n (writes : nat -> list (Z * list byte)),
  (forall q to data, q < n -> In (to, data) (writes q) -> (0 <= to < Z.of_nat n)%Z) ->
  (forall q to data, In (to, data) (writes q) -> (Z.of_nat (length data) < 2 ^ 64)%Z) ->
  ((forall q d, q < n -> d < n ->
      (Z.of_nat (8 * length (for_key d (writes q)) + length (concat (for_key d (writes q)))) <= 2147483647)%Z) ->
   forall q, q < n -> exists p ms, write_all n no_peers (writes q) = Some p /\ comm_send p = Some ms) /\
  forall sent, (forall q, q < n -> exists p, write_all n no_peers (writes q) = Some p /\ comm_send p = Some (sent q)) ->
  forall d ordered arrivals, d < n -> Permutation arrivals (network n sent d) ->
  exists fuel s' got, read_loop fuel (start_reading ordered arrivals) = Some (s', got) /\
    (forall q, q < n -> for_key q got = for_key d (writes q)) /\
    (forall f x, In (f, x) got -> (0 <= f < Z.of_nat n)%Z) /\
    (ordered = true -> StronglySorted (fun a c => (fst a <= fst c)%Z) got) /\
    listen s' = None.
Proof.
  intros n writes Hr Hl.
  destruct (C67_receive_loop (list byte) framed frame (fun y => (Z.of_nat (length y) < 2 ^ 64)%Z)
              (fun y rest H => framed_parses y rest H)
              ltac:(intros x _ E; apply (f_equal (@length byte)) in E; unfold frame in E; rewrite app_length, encode_length in E; discriminate)
              n (fun q => pieces_of (writes q)) (fun q d => for_key d (writes q))) as (A & B).
  - intros q to data Hq H. unfold pieces_of in H. apply in_flat_map in H as ([k y] & H & I). cbn [fst snd] in I.
    destruct I as [E|[E|[]]]; inversion E; subst; eauto.
  - intros q d _ _. apply pieces_for.
  - intros q d x H. unfold for_key in H. apply in_map_iff in H as ([k y] & E & H). apply filter_In in H as (H & _). simpl in E. subst. eauto.
  - split.
    + intros Hi q Hq. rewrite write_all_is. apply A; auto. intros q' d Hq' Hd. rewrite pieces_for.
      specialize (Hi q' d Hq' Hd). etransitivity; [|exact Hi]. apply inj_le. generalize (for_key d (writes q')) as l.
      induction l as [|y l IH]; [cbn; lia|]. cbn [map concat length]. rewrite !app_length. unfold frame at 1.
      rewrite app_length, encode_length. unfold size_bytes. lia.
    + intros sent Hs d ordered arrivals Hd P. destruct (B sent) with (d := d) (ordered := ordered) (arrivals := arrivals) as (fuel & s' & got & L & R); auto.
      * intros q Hq. rewrite <- write_all_is. auto.
      * exists fuel, s', got. rewrite read_loop_is. auto.
Qed.

(** Three ranks; rank 0 writes an empty and a short message to rank 2 and one to itself, rank 1
    writes two to rank 2, rank 2 nothing.  Rank 2 reads with the arrivals in either order. *)
Definition rw_writes (q : nat) : list (Z * list byte) :=
  match q with
  | 0 => [(2%Z, []); (0%Z, [7;7]); (2%Z, [1;2;3])]
  | 1 => [(2%Z, [9]); (2%Z, [])]
  | _ => []
  end.
Definition rw_sent (q : nat) : list (Z * list byte) :=
  match p <- write_all 3 no_peers (rw_writes q) ;; comm_send p with Some l => l | None => [] end.
Example C67_example :
  map (fun q => length (rw_sent q)) [0; 1; 2] = [2; 1; 0] /\
  map (fun m => (fst m, length (snd m))) (network 3 rw_sent 2) = [(0%Z, 19); (1%Z, 17)] /\
  option_map snd (read_loop 20 (start_reading false (network 3 rw_sent 2)))
    = Some [(0%Z, []); (0%Z, [1;2;3]); (1%Z, [9]); (1%Z, [])] /\
  option_map snd (read_loop 20 (start_reading false (rev (network 3 rw_sent 2))))
    = Some [(1%Z, [9]); (1%Z, []); (0%Z, []); (0%Z, [1;2;3])] /\
  option_map snd (read_loop 20 (start_reading true (rev (network 3 rw_sent 2))))
    = Some [(0%Z, []); (0%Z, [1;2;3]); (1%Z, [9]); (1%Z, [])] /\
  option_map snd (read_loop 20 (start_reading true (network 3 rw_sent 1))) = Some [].
Proof. vm_compute. repeat split; reflexivity. Qed.

(** PCU_Comm_Packed returns the number of bytes packed so far for a rank, and is refused for a rank
    nothing was packed for or that does not exist. *)
Theorem C67_packed : forall n ops p to, (forall k data, In (k, data) ops -> (0 <= k < Z.of_nat n)%Z) ->
  pack_all n no_peers ops = Some p ->
  comm_packed n p to =
    if existsb (fun o => Z.eqb (fst o) to) ops
    then Some (length (concat (map snd (filter (fun o => Z.eqb (fst o) to) ops)))) else None.
Proof.
  intros n ops p to H E.
  destruct (pack_all_ok n ops no_peers [] no_peers_ok) as (p' & E' & I).
  { intros [k y] Ho. eapply H; eauto. }
  rewrite E in E'. inversion E'; subst p'. cbn [app] in I. destruct I as (I1 & I2 & I3 & I4 & I5).
  unfold comm_packed.
  destruct (existsb (fun o => Z.eqb (fst o) to) ops) eqn:Ex.
  - apply existsb_exists in Ex as ([k y] & Ho & Ek). simpl in Ek. apply Z.eqb_eq in Ek. subst k.
    pose proof (H _ _ Ho) as R.
    replace ((to <? 0)%Z || (Z.of_nat n <=? to)%Z) with false by (symmetry; apply orb_false_iff; split; [apply Z.ltb_ge|apply Z.leb_gt]; lia).
    destruct (proj2 (I3 to)) as (x & Hx & Ex); [apply in_map_iff; exists (to, y); auto|].
    assert (F : find (to, 0) (p_tree p) = Some x) by (apply find_spec; auto).
    rewrite F. cbn [obind]. destruct (I5 x Hx) as (b & Eb & Hb). rewrite Eb. cbn [obind]. f_equal.
    rewrite Ex in Hb. destruct Hb as (tl & Em & Es). exact Es.
  - destruct ((to <? 0)%Z || (Z.of_nat n <=? to)%Z); auto.
    destruct (find (to, 0) (p_tree p)) as [x|] eqn:F; auto. exfalso. apply find_spec in F as (Hx & Kx); auto.
    assert (K : In to (map fst ops)) by (apply I3; exists x; auto).
    apply in_map_iff in K as (o & Eo & Ho). apply not_true_iff_false in Ex. apply Ex. apply existsb_exists. exists o. split; auto.
    apply Z.eqb_eq. exact Eo.
Qed.

Example C67_packed_example :
  option_map (fun p => map (comm_packed 3 p) [0; 1; 2; 3; -1]%Z) (write_all 3 no_peers (rw_writes 0))
  = Some [Some 10; None; Some 19; None; None].
Proof. vm_compute. reflexivity. Qed.

(* ------------------------------------------------------------------ *)
(** ** PCU_Or and PCU_And (pcu.c:475-485) are the maximum and the minimum of the arguments of the
    ranks, pcu.c:441-471; [c q] is the argument of rank q, non-zero meaning true.  [runs] gives every
    rank the actions of the all-reduce, [csteps] any interleaving of them (PcuCollModel.v). *)
Theorem C67_or : forall n (c : nat -> Z) prog i s r,
  0 < n -> (forall q, q < n -> (0 <= c q)%Z) -> runs n allreduce_prog prog ->
  csteps pcu_max n i (cinit prog (fun q => [c q])) s -> r < n -> c_pc s r = [] ->
  (nth 0 (c_val s r) 0%Z <> 0%Z <-> exists q, q < n /\ c q <> 0%Z).
Proof.
  intros n c prog i s r Hn Hc Hp Hs Hr Hf.
  destruct (C29_max n 1 (fun q => [c q]) prog i s r 0 Hn ltac:(auto) Hp Hs Hr Hf ltac:(lia)) as ((q0 & Hq0 & E) & L).
  cbn [nth] in E, L. split.
  - intros H. exists q0. split; auto. rewrite <- E. exact H.
  - intros (q & Hq & H). specialize (L q Hq). specialize (Hc q Hq). lia.
Qed.
Theorem C67_and : forall n (c : nat -> Z) prog i s r,
  0 < n -> (forall q, q < n -> (0 <= c q)%Z) -> runs n allreduce_prog prog ->
  csteps pcu_min n i (cinit prog (fun q => [c q])) s -> r < n -> c_pc s r = [] ->
  (nth 0 (c_val s r) 0%Z <> 0%Z <-> forall q, q < n -> c q <> 0%Z).
Proof.
  intros n c prog i s r Hn Hc Hp Hs Hr Hf.
  destruct (C29_min n 1 (fun q => [c q]) prog i s r 0 Hn ltac:(auto) Hp Hs Hr Hf ltac:(lia)) as ((q0 & Hq0 & E) & L).
  cbn [nth] in E, L. split.
  - intros H q Hq. specialize (L q Hq). specialize (Hc q0 Hq0). lia.
  - intros H. rewrite E. auto.
Qed.

(** With a negative value for "true" both are wrong, in every execution: the disjunction of -1 and 0
    is 0 (false), the conjunction of -1 and 0 is -1 (true). *)
Theorem C67_or_negative_refuted : forall n (c : nat -> Z) prog i s r q0 q1,
  0 < n -> (forall q, q < n -> (c q <= 0)%Z) -> q0 < n -> q1 < n -> c q0 <> 0%Z -> c q1 = 0%Z ->
  runs n allreduce_prog prog ->
  csteps pcu_max n i (cinit prog (fun q => [c q])) s -> r < n -> c_pc s r = [] ->
  nth 0 (c_val s r) 0%Z = 0%Z.
Proof.
  intros n c prog i s r q0 q1 Hn Hc H0 H1 N0 N1 Hp Hs Hr Hf.
  destruct (C29_max n 1 (fun q => [c q]) prog i s r 0 Hn ltac:(auto) Hp Hs Hr Hf ltac:(lia)) as ((q2 & Hq2 & E) & L).
  cbn [nth] in E, L. specialize (L q1 H1). specialize (Hc q2 Hq2). lia.
Qed.
Theorem C67_and_negative_refuted : forall n (c : nat -> Z) prog i s r q0 q1,
  0 < n -> q0 < n -> q1 < n -> (c q0 < 0)%Z -> c q1 = 0%Z -> runs n allreduce_prog prog ->
  csteps pcu_min n i (cinit prog (fun q => [c q])) s -> r < n -> c_pc s r = [] ->
  nth 0 (c_val s r) 0%Z <> 0%Z.
Proof.
  intros n c prog i s r q0 q1 Hn H0 H1 N0 N1 Hp Hs Hr Hf.
  destruct (C29_min n 1 (fun q => [c q]) prog i s r 0 Hn ltac:(auto) Hp Hs Hr Hf ltac:(lia)) as (_ & L).
  cbn [nth] in L. specialize (L q0 H0). lia.
Qed.

(** Two ranks run to the end of the reduction: -1 "or" 0 comes out as 0, -1 "and" 0 as -1. *)
Definition or_args (r : nat) : list Z := [if r =? 0 then (-1)%Z else 0%Z].
Example C67_or_and_run :
  (exists i s, csteps pcu_max 2 i (cinit (get_prog allreduce_prog 2) or_args) s /\
     map (c_pc s) (seq 0 2) = [[]; []] /\ map (c_val s) (seq 0 2) = [[0%Z]; [0%Z]]) /\
  (exists i s, csteps pcu_min 2 i (cinit (get_prog allreduce_prog 2) or_args) s /\
     map (c_pc s) (seq 0 2) = [[]; []] /\ map (c_val s) (seq 0 2) = [[(-1)%Z]; [(-1)%Z]]).
Proof.
  split.
  - destruct (run pcu_max 2 50 (cinit (get_prog allreduce_prog 2) or_args)) as [i s] eqn:E.
    exists i, s. split; [eapply run_steps; eauto|].
    assert (H : let (i, s) := run pcu_max 2 50 (cinit (get_prog allreduce_prog 2) or_args) in
      map (c_pc s) (seq 0 2) = [[]; []] /\ map (c_val s) (seq 0 2) = [[0%Z]; [0%Z]]) by (vm_compute; auto).
    rewrite E in H. exact H.
  - destruct (run pcu_min 2 50 (cinit (get_prog allreduce_prog 2) or_args)) as [i s] eqn:E.
    exists i, s. split; [eapply run_steps; eauto|].
    assert (H : let (i, s) := run pcu_min 2 50 (cinit (get_prog allreduce_prog 2) or_args) in
      map (c_pc s) (seq 0 2) = [[]; []] /\ map (c_val s) (seq 0 2) = [[(-1)%Z]; [(-1)%Z]]) by (vm_compute; auto).
    rewrite E in H. exact H.
Qed.

(** A body in the style of the migration: a count of one byte, then that many more bytes; the
    hypotheses of C67_receive_loop hold for it. *)
Definition counted : body (list byte) := Get 1 (fun c => Get (nth 0 c 0) (fun d => Done d)).
Example C67_counted : (forall x rest, True -> parse counted ((length x :: x) ++ rest) = Some (x, rest)) /\
  option_map snd (receive_loop 20 counted (start_reading true
     [(4%Z, [2; 8; 9; 0; 1; 5]); (1%Z, []); (0%Z, [3; 1; 2; 3])]))
  = Some [(0%Z, [1; 2; 3]); (4%Z, [8; 9]); (4%Z, []); (4%Z, [5])].
Proof.
  split; [|vm_compute; reflexivity]. intros x rest _. unfold counted. cbn [parse app length firstn skipn nth Nat.leb].
  replace (length x <=? length (x ++ rest)) with true by (symmetry; apply Nat.leb_le; rewrite app_length; lia).
  rewrite firstn_app_exact, skipn_app_exact. reflexivity.
Qed.

Print Assumptions C67_receive_loop.
Print Assumptions C67_write_read.
Print Assumptions C67_packed.
Print Assumptions C67_or.
Print Assumptions C67_and.
Print Assumptions C67_or_negative_refuted.
Print Assumptions C67_and_negative_refuted.
