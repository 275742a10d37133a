(** Properties C27 (buffers), C31 (phases), C32 (ordered delivery). *)
From Verif Require Import Base PcuAAModel PcuAAProofs PcuMsgModel PcuMsgProofs PcuPhaseProofs.
From Coq Require Import Sorted.

(* ------------------------------------------------------------------ *)
(** ** C27 *)

(** Any sequence of PCU_Comm_Pack calls to valid ranks succeeds, and if no rank was packed more than
    INT_MAX bytes so does PCU_Comm_Send. *)
Theorem C27_pack_send : forall n ops, (forall to data, In (to, data) ops -> (0 <= to < Z.of_nat n)%Z) ->
  exists p, pack_all n no_peers ops = Some p /\
    ((forall d, (Z.of_nat (length (concat (map snd (filter (fun o => Z.eqb (fst o) d) ops)))) <= 2147483647)%Z) <->
     exists ms, comm_send p = Some ms).
Proof.
  intros n ops H.
  assert (H' : forall o, In o ops -> (0 <= fst o < Z.of_nat n)%Z) by (intros [to data] Ho; eauto).
  destruct (pack_all_ok n ops no_peers [] no_peers_ok H') as (p & E & _). exists p. split; auto. split.
  - intros F. destruct (pack_send n ops H') as (p' & ms & A & B).
    { intros d _. apply F. }
    rewrite E in A. inversion A; subst. eauto.
  - intros (ms & B) d. destruct (sent_messages n ops p ms H' E B) as (_ & _ & _ & F).
    destruct (in_dec Z.eq_dec d (map fst ops)) as [I|I]; [exact (F d I)|].
    change (concat (map snd (filter (fun o => Z.eqb (fst o) d) ops))) with (packed_for d ops). rewrite packed_for_none by auto.
    cbn. lia.
Qed.

(** What PCU_Comm_Send sends: one message to each rank something was packed for and to no other,
    holding the bytes packed for that rank, in order. *)
Theorem C27_sent : forall n ops p ms, (forall to data, In (to, data) ops -> (0 <= to < Z.of_nat n)%Z) ->
  pack_all n no_peers ops = Some p -> comm_send p = Some ms ->
    NoDup (map fst ms) /\
    (forall d, In d (map fst ms) <-> exists data, In (d, data) ops) /\
    (forall d bytes, In (d, bytes) ms -> bytes = concat (map snd (filter (fun o => Z.eqb (fst o) d) ops))).
Proof.
  intros n ops p ms H A B. destruct (sent_messages n ops p ms) as (C & D & E & _); auto.
  { intros [to data] Ho. eauto. }
  repeat split; auto; intros.
  - apply D in H0. apply in_map_iff in H0 as ([d' x] & <- & ?). eauto.
  - apply D. destruct H0 as (x & ?). apply in_map_iff. exists (d, x). auto.
Qed.

(** Packing to a rank that does not exist is rejected. *)
Theorem C27_invalid_rank : forall n p to data, ~ (0 <= to < Z.of_nat n)%Z -> comm_pack n p to data = None.
Proof. intros. apply pack_out_of_range. lia. Qed.

(** A received message of [bytes], unpacked in pieces of any sizes: the pieces are consecutive
    slices from the start; PCU_Comm_Unpacked holds exactly when all bytes were consumed. *)
Theorem C27_unpack : forall bytes b0 sizes, nsum sizes <= length bytes ->
  exists b pieces, unpack_all (begin_buffer (receive_into b0 bytes)) sizes = Some (b, pieces) /\
    map (@length byte) pieces = sizes /\ concat pieces = firstn (nsum sizes) bytes /\
    (buffer_walked b = true <-> nsum sizes = length bytes).
Proof.
  intros bytes b0 sizes H.
  destruct (unpack_all_ok (begin_buffer (receive_into b0 bytes)) sizes [] bytes eq_refl) as (A & _).
  specialize (A H). change {| b_mem := b_mem (begin_buffer (receive_into b0 bytes)); b_size := length [] |}
    with (begin_buffer (receive_into b0 bytes)) in A.
  eexists _, _. split; [exact A|]. split; [|split].
  - clear A. revert bytes H. induction sizes as [|n sizes IH]; intros bytes H; simpl in *; auto.
    rewrite firstn_length, Nat.min_l by (unfold nsum in *; lia). f_equal. apply IH. rewrite skipn_length. unfold nsum in *. lia.
  - clear A. revert bytes H. induction sizes as [|n sizes IH]; intros bytes H; simpl in *; auto.
    rewrite IH by (rewrite skipn_length; unfold nsum in *; lia).
    transitivity (firstn (n + nsum sizes) (firstn n bytes ++ skipn n bytes)); [|now rewrite firstn_skipn].
    assert (L : n = length (firstn n bytes)) by (rewrite firstn_length; unfold nsum in *; lia).
    rewrite L at 3. rewrite firstn_app_2. reflexivity.
  - unfold buffer_walked, b_cap. cbn [b_size b_mem begin_buffer receive_into]. rewrite ainit_length, Nat.eqb_eq. simpl. tauto.
Qed.

(** Unpacking more than was received fails. *)
Theorem C27_walk_past_end : forall bytes b0 sizes, length bytes < nsum sizes ->
  unpack_all (begin_buffer (receive_into b0 bytes)) sizes = None.
Proof.
  intros bytes b0 sizes H.
  destruct (unpack_all_ok (begin_buffer (receive_into b0 bytes)) sizes [] bytes eq_refl) as (_ & A). exact (A H).
Qed.

(** The round trip: the receiver that unpacks pieces of the sizes the sender packed for it gets
    back the packed pieces. *)
Theorem C27_roundtrip : forall n ops p ms d bytes b0,
  (forall to data, In (to, data) ops -> (0 <= to < Z.of_nat n)%Z) ->
  pack_all n no_peers ops = Some p -> comm_send p = Some ms -> In (d, bytes) ms ->
  let mine := map snd (filter (fun o => Z.eqb (fst o) d) ops) in
  exists b, unpack_all (begin_buffer (receive_into b0 bytes)) (map (@length byte) mine) = Some (b, mine) /\
            buffer_walked b = true.
Proof.
  intros n ops p ms d bytes b0 H E1 E2 Hin mine. destruct (C27_sent n ops p ms H E1 E2) as (_ & _ & F3).
  apply F3 in Hin. fold mine in Hin. subst bytes.
  destruct (unpack_all_ok (begin_buffer (receive_into b0 (concat mine))) (map (@length byte) mine) [] (concat mine) eq_refl) as (A & _).
  rewrite length_concat in A. specialize (A (le_n _)). rewrite slices_map_length in A. eexists. split; [exact A|].
  unfold buffer_walked, b_cap. cbn [b_size b_mem begin_buffer receive_into]. rewrite ainit_length, length_concat. apply Nat.eqb_refl.
Qed.

(** Five packs to three ranks, forcing a reallocation of the buffer of rank 2. *)
Example C27_example :
  let ops := [(2%Z, [1;2;3]); (0%Z, []); (2%Z, repeat 7 30); (1%Z, [9]); (2%Z, [4])] in
  option_map (map (fun m => (fst m, length (snd m)))) (p <- pack_all 3 no_peers ops ;; comm_send p)
  = Some [(1%Z, 1); (0%Z, 0); (2%Z, 34)] /\
  option_map snd (unpack_all (begin_buffer (receive_into make_buffer [1;2;3;4])) [3; 0; 1]) = Some [[1;2;3]; []; [4]].
Proof. vm_compute. split; reflexivity. Qed.

(* ------------------------------------------------------------------ *)
(** ** C31.  [preach n phases out i s]: s is a state reached after i moves, in any order, of n
    ranks that execute [phases] phases, rank r packing [out k r] in phase k.  [s_log s d]: what
    rank d received, with the phase d was in.  [s_ph s d]: the number of phases d has finished,
    i.e. how often its PCU_Comm_Receive loop ended. *)

Definition valid {M} (n : nat) (out : nat -> nat -> list (nat * M)) : Prop :=
  forall k r dst body, In (dst, body) (out k r) -> dst < n.
Lemma valid_out {M} n (out : nat -> nat -> list (nat * M)) : valid n out -> forall k r d, In d (out k r) -> fst d < n.
Proof. intros H k r [d b] Hd. simpl. eauto. Qed.

(** No message leaks: whatever is received was sent to this rank in the phase the receiver is in. *)
Theorem C31_no_leak : forall M n phases (out : nat -> nat -> list (nat * M)) i s d k m,
  valid n out -> preach n phases out i s -> In (k, m) (s_log s d) ->
  m_dst m = d /\ m_phase m = k.
Proof.
  intros M n phases out i s d k m V H Hm.
  destruct (received_in_phase n phases out (valid_out n out V) i s d (k, m) H Hm). auto.
Qed.

(** Exactly once: when a rank's receive loop of phase k has ended, what it received in phase k is,
    up to order, everything any rank sent to it in phase k: sender and contents. *)
Theorem C31_exactly_once : forall M n phases (out : nat -> nat -> list (nat * M)) i s d k,
  valid n out -> preach n phases out i s -> d < n -> k < s_ph s d ->
  Permutation
    (map (fun e => (m_src (snd e), m_body (snd e))) (filter (fun e => fst e =? k) (s_log s d)))
    (concat (map (fun r => map (fun m => (r, snd m)) (filter (fun m => fst m =? d) (out k r))) (seq 0 n))).
Proof.
  intros M n phases out i s d k V H Hd Hk.
  pose proof (phase_delivered n phases out (valid_out n out V) i s d k H Hd Hk) as P.
  unfold log_in in P. apply (Permutation_map (fun m => (m_src m, m_body m))) in P. rewrite map_map in P.
  rewrite P. generalize (seq 0 n) as l. clear. induction l as [|r l IH]; simpl; auto.
  rewrite filter_app, map_app, IH. apply Permutation_app_tail. unfold outgoing.
  generalize (out k r) as o. induction o as [|x o IHo]; simpl; auto. destruct (fst x =? d); simpl; auto.
Qed.

(** Termination: no state is stuck before all ranks have finished all phases, and the number of
    moves is bounded, so every schedule finishes all phases, and then nothing is in flight. *)
Theorem C31_terminates : forall M n phases (out : nat -> nat -> list (nat * M)) i s,
  valid n out -> preach n phases out i s ->
  i <= 5 * n * phases + nsum (map (fun r => nsum (map (fun k => length (out k r)) (seq 0 phases))) (seq 0 n)) /\
  ((exists s', pstep n phases out s s') \/
   (s_net s = [] /\ forall r, r < n -> s_st s r = PIdle /\ s_ph s r = phases)).
Proof.
  intros M n phases out i s V H. pose proof (valid_out n out V) as V'. split; [eapply moves_bounded; eauto|].
  assert (D : (forall r, r < n -> s_st s r = PIdle /\ s_ph s r = phases) \/ ~ (forall r, r < n -> s_st s r = PIdle /\ s_ph s r = phases)).
  { clear. induction n as [|m IH]; [left; intros; lia|].
    destruct IH as [IH|IH].
    - destruct (s_st s m) eqn:E; [destruct (Nat.eq_dec (s_ph s m) phases)| | | |];
        [left; intros r Hr; destruct (Nat.eq_dec r m); [subst; auto|apply IH; lia]|..];
        right; intros F; destruct (F m); try lia; congruence.
    - right. intros F. apply IH. intros r Hr. apply F. lia. }
  destruct D as [D|D]; [right; split; [eapply finished_clean; eauto|exact D]|left; eapply progress; eauto].
Qed.

(** Hence complete executions exist (the theorems above are not vacuous). *)
Theorem C31_completes : forall M n phases (out : nat -> nat -> list (nat * M)), valid n out ->
  exists i s, preach n phases out i s /\ forall r, r < n -> s_st s r = PIdle /\ s_ph s r = phases.
Proof.
  intros M n phases out V.
  set (B := 5 * n * phases + nsum (map (fun r => nsum (map (fun k => length (out k r)) (seq 0 phases))) (seq 0 n))).
  assert (G : forall j i s, preach n phases out i s -> B < i + j ->
    exists i s, preach n phases out i s /\ forall r, r < n -> s_st s r = PIdle /\ s_ph s r = phases).
  { induction j as [|j IH]; intros i s H L; destruct (C31_terminates M n phases out i s V H) as (A & [(s' & St)|(_ & D)]); eauto.
    - fold B in A. lia.
    - apply (IH (S i) s'); [econstructor; eauto|lia]. }
  apply (G (S B) 0 pinit); [constructor|lia].
Qed.

(** A valid pattern: a ring in which rank r sends the phase number to rank r+1 in every phase. *)
Example C31_example : valid 3 (fun k r => [((r + 1) mod 3, k)]).
Proof. intros k r dst body [E|[]]. apply (f_equal fst) in E. cbn [fst] in E. rewrite <- E. apply Nat.mod_upper_bound. discriminate. Qed.

(* ------------------------------------------------------------------ *)
(** ** C32.  Messages are (sender, contents); a rank gets at most one per sender in a phase
    (C27_sent: one message per destination). *)
Theorem C32_ordered : forall arrivals fuel, NoDup (map fst arrivals) -> length arrivals < fuel ->
  exists delivered, listen_loop fuel arrivals init_order = Some (init_order, delivered) /\
    Permutation delivered arrivals /\ StronglySorted (fun a b => (fst a < fst b)%Z) delivered.
Proof. intros; now apply order_delivers. Qed.

Example C32_example : listen_loop 9 [(5%Z,[1]); (2%Z,[]); (9%Z,[3;3]); (0%Z,[4])] init_order
  = Some (init_order, [(0%Z,[4]); (2%Z,[]); (5%Z,[1]); (9%Z,[3;3])]).
Proof. vm_compute. reflexivity. Qed.

Print Assumptions C27_pack_send.
Print Assumptions C27_sent.
Print Assumptions C27_invalid_rank.
Print Assumptions C27_unpack.
Print Assumptions C27_walk_past_end.
Print Assumptions C27_roundtrip.
Print Assumptions C31_no_leak.
Print Assumptions C31_exactly_once.
Print Assumptions C31_terminates.
Print Assumptions C31_completes.
Print Assumptions C32_ordered.
