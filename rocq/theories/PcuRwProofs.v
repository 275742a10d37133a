(** Proofs about the read and write calls of pcu.c. *)
From Verif Require Import Base PcuAAModel PcuAAProofs PcuMsgModel PcuMsgProofs PcuRwModel PcuRwSpec.
From Coq Require Import Sorted.

(* ------------------------------------------------------------------ *)
(** * Sizes *)
Lemma encode_length k z : length (encode k z) = k.
Proof. revert z. induction k as [|k IH]; intros z; simpl; auto. Qed.
Lemma decode_encode k : forall z, (0 <= z < 256 ^ Z.of_nat k)%Z -> decode (encode k z) = z.
Proof.
  induction k as [|k IH]; intros z H; cbn [encode decode].
  - simpl in H. lia.
  - rewrite Nat2Z.inj_succ, Z.pow_succ_r in H by lia. rewrite IH.
    + pose proof (Z.mod_pos_bound z 256 ltac:(lia)). rewrite Z2Nat.id by lia.
      pose proof (Z.div_mod z 256 ltac:(lia)). lia.
    + split; [apply Z.div_pos; lia|]. apply Z.div_lt_upper_bound; lia.
Qed.

(* ------------------------------------------------------------------ *)
(** * The current buffer *)
Definition with_buf (s : reader) (b : buffer) : reader :=
  {| r_ordered := r_ordered s; r_open := r_open s; r_net := r_net s; r_buf := b; r_peer := r_peer s;
     r_ord := r_ord s |}.
Lemma with_buf_id s : with_buf s (r_buf s) = s.
Proof. destruct s; reflexivity. Qed.

(** the buffer holds [fin ++ rest] and the first part has been walked over *)
Definition holds_rest (b : buffer) (rest : list byte) : Prop :=
  exists fin, b_mem b = ainit (fin ++ rest) /\ b_size b = length fin.
Lemma rest_walked b rest : holds_rest b rest -> buffer_walked b = true <-> rest = [].
Proof.
  intros (fin & E1 & E2). unfold buffer_walked, b_cap. rewrite E1, E2, ainit_length, app_length, Nat.eqb_eq.
  split; intros H; [destruct rest; auto; simpl in H; lia|subst; simpl; lia].
Qed.
Lemma rest_take b l1 l2 : holds_rest b (l1 ++ l2) -> exists b', comm_unpack b (length l1) = Some (b', l1) /\ holds_rest b' l2.
Proof.
  intros (fin & E1 & E2).
  destruct (unpack_all_ok b [length l1] fin (l1 ++ l2) E1) as (A & _).
  assert (Hb : {| b_mem := b_mem b; b_size := length fin |} = b) by (destruct b; simpl in *; congruence).
  rewrite Hb in A.
  cbn [unpack_all slices nsum fold_right] in A. rewrite firstn_app_exact in A.
  rewrite app_length in A. specialize (A ltac:(lia)).
  destruct (comm_unpack b (length l1)) as [[b1 d]|]; [|discriminate]. cbn [obind] in A.
  inversion A; subst. eexists. split; [reflexivity|]. exists (fin ++ l1). cbn [b_mem b_size].
  rewrite <- app_assoc, app_length. split; auto.
Qed.

Lemma run_parse {X} (b : body X) : forall s l x rest, holds_rest (r_buf s) l -> parse b l = Some (x, rest) ->
  exists b', run_body b s = Some (with_buf s b', x) /\ holds_rest b' rest.
Proof.
  induction b as [y|k next IH]; intros s l x rest H E; cbn [parse run_body] in *.
  - inversion E; subst. exists (r_buf s). rewrite with_buf_id. auto.
  - destruct (Nat.leb_spec k (length l)) as [L|]; [|discriminate].
    rewrite <- (firstn_skipn k l) in H. destruct (rest_take _ _ _ H) as (b1 & E1 & H1).
    rewrite firstn_length, Nat.min_l in E1 by lia.
    unfold take. rewrite E1. cbn [obind].
    destruct (IH (firstn k l) (with_buf s b1) (skipn k l) x rest) as (b2 & E2 & H2); [exact H1|exact E|].
    exists b2. split; [|exact H2]. exact E2.
Qed.

(* ------------------------------------------------------------------ *)
(** * The messages still to be listened to *)
Fixpoint delivers (s : reader) (ms : list (Z * list byte)) : Prop :=
  match ms with
  | [] => exists s1, listen s = Some (s1, false) /\ r_open s1 = false /\ r_net s1 = [] /\ listen s1 = None /\
                     unpacked s1 = true
  | m :: r => exists s1, listen s = Some (s1, true) /\ r_peer s1 = fst m /\ holds_rest (r_buf s1) (snd m) /\
                (r_ordered s1 = true -> o_ready (r_ord s1) = true) /\
                forall b, buffer_walked b = true -> delivers (with_buf s1 b) r
  end.

Lemma begin_receive b d : holds_rest (begin_buffer (receive_into b d)) d.
Proof. exists []. split; reflexivity. Qed.
Lemma delivers_net : forall ms s, r_ordered s = false -> r_open s = true -> buffer_walked (r_buf s) = true ->
  r_net s = ms -> delivers s ms.
Proof.
  induction ms as [|[f d] ms IH]; intros s Ho Hp Hw Hn; cbn [delivers]; unfold listen;
    rewrite Ho, Hp, Hw, Hn; cbn [negb].
  - eexists. split; [reflexivity|]. repeat split.
  - eexists. split; [reflexivity|]. cbn [r_peer r_buf r_ordered fst snd]. split; auto. split; [apply begin_receive|].
    split; [discriminate|]. intros b Hb. apply IH; auto.
Qed.

Lemma order_ready a o o1 m : order_receive a o = Some (o1, Some m) -> o_ready o1 = true.
Proof.
  unfold order_receive, prepare. intros E.
  destruct (o_ready o) eqn:R.
  - cbn [obind] in E. destruct (_ =? _)%Z; [discriminate|]. match type of E with (_ <- ?e ;; _) = _ => destruct e; [|discriminate] end. cbn [obind] in E.
    destruct (nth_error _ _); [|discriminate]. cbn [obind] in E. now inversion E.
  - destruct (order_collect _ _ _) as [[t ms]|]; [|discriminate]. cbn [obind o_at o_count o_array o_msgs o_ready] in E.
    destruct (_ =? _)%Z; [discriminate|]. match type of E with (_ <- ?e ;; _) = _ => destruct e; [|discriminate] end. cbn [obind] in E.
    destruct (nth_error _ _); [|discriminate]. cbn [obind] in E. now inversion E.
Qed.
Lemma order_end a o o1 : order_receive a o = Some (o1, None) -> o1 = init_order.
Proof.
  unfold order_receive. intros E. destruct (if o_ready o then _ else _) as [o2|]; [|discriminate]. cbn [obind] in E.
  destruct (_ =? _)%Z; [now inversion E|]. match type of E with (_ <- ?e ;; _) = _ => destruct e; [|discriminate] end. cbn [obind] in E.
  destruct (nth_error _ _); discriminate.
Qed.
Lemma order_net a a' o : o_ready o = true -> order_receive a o = order_receive a' o.
Proof. unfold order_receive. intros ->. reflexivity. Qed.

Lemma delivers_order : forall fuel s o' ms, r_ordered s = true ->
  (o_ready (r_ord s) = true \/ r_open s = true) ->
  listen_loop fuel (r_net s) (r_ord s) = Some (o', ms) -> delivers s ms.
Proof.
  induction fuel as [|f IH]; intros s o' ms Ho Hr E; [discriminate|]. cbn [listen_loop] in E.
  destruct (order_receive (r_net s) (r_ord s)) as [[o1 [[from d]|]]|] eqn:Er; [| |discriminate]; cbn [obind] in E.
  - destruct (listen_loop f (r_net s) o1) as [[o2 r]|] eqn:El; [|discriminate]. cbn [obind] in E. inversion E; subst.
    cbn [delivers]. unfold listen. rewrite Ho.
    replace (negb (o_ready (r_ord s)) && negb (r_open s)) with false
      by (destruct Hr as [-> | ->]; cbn; auto using andb_false_r).
    rewrite Er. cbn [obind].
    eexists. split; [reflexivity|]. cbn [r_peer r_buf r_ordered r_ord fst snd]. split; auto. split; [apply begin_receive|].
    pose proof (order_ready _ _ _ _ Er) as R. split; [auto|]. intros b Hb.
    apply IH with (o' := o'); [reflexivity|left; exact R|]. cbn [with_buf r_net r_ord].
    rewrite <- El. clear -R. revert o1 R.
    induction f as [|f IH]; intros o1 R; [reflexivity|]. cbn [listen_loop]. rewrite (order_net [] (r_net s) o1 R).
    destruct (order_receive (r_net s) o1) as [[o2 [m|]]|] eqn:E2; cbn [obind]; auto.
    rewrite IH; auto. eapply order_ready; eauto.
  - inversion E; subst. cbn [delivers]. unfold listen at 1. rewrite Ho.
    replace (negb (o_ready (r_ord s)) && negb (r_open s)) with false
      by (destruct Hr as [-> | ->]; cbn; auto using andb_false_r).
    rewrite Er. cbn [obind]. apply order_end in Er. subst o'.
    eexists. split; [reflexivity|]. repeat split.
Qed.

(* ------------------------------------------------------------------ *)
(** * The loop *)
Section Loop.
Context {X : Type}.
Variable b : body X.
Variable enc : X -> list byte.
Variable ok : X -> Prop.
Hypothesis parses : forall x rest, ok x -> parse b (enc x ++ rest) = Some (x, rest).
Hypothesis nonempty : forall x, ok x -> enc x <> [].

Definition bytes_of (xs : list X) : list byte := concat (map enc xs).
Definition wire (ms : list (Z * list X)) : list (Z * list byte) := map (fun m => (fst m, bytes_of (snd m))) ms.

(** in state s the records xs of the current buffer are still to be read, then the messages ms *)
Definition cur (s : reader) (xs : list X) (ms : list (Z * list X)) : Prop :=
  holds_rest (r_buf s) (bytes_of xs) /\
  (r_ordered s = true -> o_ready (r_ord s) = true \/ xs = []) /\
  (forall bf, buffer_walked bf = true -> delivers (with_buf s bf) (wire ms)) /\
  (forall x, In x xs -> ok x) /\ (forall m x, In m ms -> In x (snd m) -> ok x).

Definition phase_over (s : reader) : Prop := r_open s = false /\ r_net s = [] /\ listen s = None /\ unpacked s = true.

Lemma bytes_cons x xs : ok x -> bytes_of (x :: xs) <> [].
Proof. intros H E. unfold bytes_of in E. simpl in E. apply app_eq_nil in E as (E & _). now apply (nonempty x). Qed.

Lemma receive_now fuel s x xs ms : cur s (x :: xs) ms -> comm_receive (S fuel) s = Some (s, true).
Proof.
  intros (H & Ho & _ & Hx & _). cbn [comm_receive].
  replace (unpacked s) with false; auto. symmetry. unfold unpacked.
  assert (W : buffer_walked (r_buf s) = false).
  { apply not_true_iff_false. rewrite (rest_walked _ _ H). apply bytes_cons. apply Hx. now left. }
  destruct (r_ordered s); auto. destruct (Ho eq_refl) as [-> |]; [auto|discriminate].
Qed.

Lemma receive_next : forall ms fuel s, length ms < fuel -> cur s [] ms ->
  (exists s1, comm_receive fuel s = Some (s1, false) /\ phase_over s1 /\ forall m, In m ms -> snd m = []) \/
  (exists s1 pre f x xs post, comm_receive fuel s = Some (s1, true) /\ ms = pre ++ (f, x :: xs) :: post /\
     (forall m, In m pre -> snd m = []) /\ r_peer s1 = f /\ cur s1 (x :: xs) post).
Proof.
  induction ms as [|[f xs] ms IH]; intros fuel s L H; destruct fuel as [|fuel]; [simpl in L; lia| |simpl in L; lia|];
    pose proof H as (H1 & H2 & H3 & H4 & H5);
    assert (W : buffer_walked (r_buf s) = true) by (apply (rest_walked _ _ H1); reflexivity);
    assert (U : unpacked s = true) by (unfold unpacked; rewrite W; destruct (r_ordered s), (o_ready (r_ord s)); reflexivity);
    specialize (H3 _ W); rewrite with_buf_id in H3; cbn [delivers wire map fst snd] in H3;
    destruct H3 as (s1 & E & D); cbn [comm_receive]; rewrite U, E; cbn [obind].
  - left. exists s1. split; [reflexivity|]. split; [exact D|]. intros m [].
  - destruct D as (D1 & D2 & D3 & D4). destruct xs as [|x xs].
    + destruct (IH fuel s1) as [(s2 & F & G & K)|(s2 & pre & f' & x & xs & post & F & G & K & P & C)].
      * simpl in L. lia.
      * repeat split; auto. intros m x Hm. apply H5. now right.
      * left. exists s2. split; [exact F|]. split; [exact G|]. intros m [<-|Hm]; auto.
      * right. exists s2, ((f, []) :: pre), f', x, xs, post. split; [exact F|]. split; [rewrite G; reflexivity|].
        split; [intros m [<-|Hm]; auto|]. auto.
    + assert (C : cur s1 (x :: xs) ms).
      { repeat split; auto.
        - intros y Hy. apply (H5 (f, x :: xs)); [left; reflexivity|exact Hy].
        - intros m y Hm. apply H5. now right. }
      right. exists s1, [], f, x, xs, ms. split.
      * destruct fuel as [|fuel]; [simpl in L; lia|]. eapply receive_now; eauto.
      * split; [reflexivity|]. split; [intros m []|]. auto.
Qed.

Definition tagged (f : Z) (xs : list X) : list (Z * X) := map (fun x => (f, x)) xs.
Definition all_of (ms : list (Z * list X)) : list (Z * X) := flat_map (fun m => tagged (fst m) (snd m)) ms.
Definition left_over (xs : list X) (ms : list (Z * list X)) : nat := length xs + length (all_of ms) + length ms.

Lemma all_of_empty pre : (forall m, In m pre -> snd m = []) -> all_of pre = [].
Proof.
  induction pre as [|m pre IH]; intros H; auto. cbn [all_of flat_map]. rewrite (H m) by now left.
  cbn [tagged map app]. apply IH. intros; apply H; now right.
Qed.

Lemma loop_reads : forall fuel s xs ms, cur s xs ms -> left_over xs ms < fuel ->
  exists s', receive_loop fuel b s = Some (s', tagged (r_peer s) xs ++ all_of ms) /\ phase_over s'.
Proof.
  induction fuel as [|f IH]; intros s xs ms H L; [lia|]. cbn [receive_loop].
  assert (Step : forall s x xs ms, cur s (x :: xs) ms -> left_over xs ms < f ->
    exists s', (s1 <- run_body b s ;; (let (s2, y) := s1 in '(s3, r) <- receive_loop f b s2 ;; Some (s3, (r_peer s, y) :: r)))
               = Some (s', tagged (r_peer s) (x :: xs) ++ all_of ms) /\ phase_over s').
  { clear s xs ms H L. intros s x xs ms (H1 & H2 & H3 & H4 & H5) L.
    unfold bytes_of in H1. cbn [map concat] in H1.
    destruct (run_parse b s _ x (bytes_of xs) H1) as (bf & E & Hb); [apply parses, H4; now left|].
    rewrite E. cbn [obind].
    destruct (IH (with_buf s bf) xs ms) as (s' & E' & F).
    - split; [exact Hb|]. split.
      + intros Ho. left. destruct (H2 Ho) as [?|?]; [auto|discriminate].
      + split; [exact H3|]. split; auto. intros y Hy. apply H4. now right.
    - exact L.
    - rewrite E'. cbn [obind]. exists s'. split; auto. }
  destruct xs as [|x xs].
  - destruct (receive_next ms (S f) s) as [(s1 & E & F & K)|(s1 & pre & g & x & xs & post & E & G & K & P & C)]; auto.
    + unfold left_over in L. lia.
    + rewrite E. cbn [obind]. exists s1. split; auto. rewrite (all_of_empty _ K). reflexivity.
    + rewrite E. cbn [obind].
      destruct (Step s1 x xs post C) as (s' & E' & F').
      * subst ms. unfold left_over in *. clear - L.
        assert (A : all_of (pre ++ (g, x :: xs) :: post) = all_of pre ++ tagged g (x :: xs) ++ all_of post)
          by (unfold all_of; rewrite flat_map_app; reflexivity).
        rewrite A, !app_length in L. cbn [length tagged map] in L. rewrite map_length in L. lia.
      * cbn [obind] in E'. exists s'. split; [|exact F'].
        etransitivity; [exact E'|]. f_equal. f_equal. subst ms. rewrite P. cbn [tagged map app].
        unfold all_of. rewrite flat_map_app. fold (all_of pre). rewrite (all_of_empty _ K). reflexivity.
  - rewrite (receive_now f s x xs ms H). cbn [obind].
    apply Step; auto. unfold left_over in *. simpl in L. lia.
Qed.
End Loop.

(** PCU_Comm_Read as a receive loop whose body unpacks the size and then the data *)
Definition framed : body (list byte) := Get size_bytes (fun sz => Get (Z.to_nat (decode sz)) (fun d => Done d)).
Lemma read_loop_is fuel : forall s, read_loop fuel s = receive_loop fuel framed s.
Proof.
  induction fuel as [|f IH]; intros s; auto. cbn [read_loop receive_loop]. unfold comm_read.
  destruct (comm_receive (S f) s) as [[s1 [|]]|]; cbn [obind]; auto.
  cbn [framed run_body]. destruct (take s1 size_bytes) as [[s2 sz]|]; cbn [obind]; auto.
  destruct (take s2 (Z.to_nat (decode sz))) as [[s3 d]|]; cbn [obind]; auto. rewrite IH. reflexivity.
Qed.
Definition frame (d : list byte) : list byte := encode size_bytes (Z.of_nat (length d)) ++ d.
Lemma framed_parses d rest : (Z.of_nat (length d) < 2 ^ 64)%Z -> parse framed (frame d ++ rest) = Some (d, rest).
Proof.
  intros H. unfold framed, frame. rewrite <- app_assoc. cbn [parse].
  set (e := encode size_bytes (Z.of_nat (length d))).
  assert (L : length e = size_bytes) by apply encode_length.
  assert (D : decode e = Z.of_nat (length d)).
  { apply decode_encode. change (256 ^ Z.of_nat size_bytes)%Z with (2 ^ 64)%Z. lia. }
  clearbody e. rewrite <- L.
  replace (length e <=? length (e ++ d ++ rest)) with true by (symmetry; apply Nat.leb_le; rewrite app_length; lia).
  rewrite firstn_app_exact, skipn_app_exact, D, Nat2Z.id.
  replace (length d <=? length (d ++ rest)) with true by (symmetry; apply Nat.leb_le; rewrite app_length; lia).
  rewrite firstn_app_exact, skipn_app_exact. reflexivity.
Qed.
Definition pieces_of (ops : list (Z * list byte)) : list (Z * list byte) :=
  flat_map (fun o => [(fst o, encode size_bytes (Z.of_nat (length (snd o)))); (fst o, snd o)]) ops.
Lemma write_all_is n : forall ops p, write_all n p ops = pack_all n p (pieces_of ops).
Proof.
  induction ops as [|[to d] ops IH]; intros p; auto. cbn [write_all pieces_of flat_map app pack_all fst snd].
  unfold comm_write. destruct (comm_pack n p to _) as [p1|]; cbn [obind]; auto.
  destruct (comm_pack n p1 to d) as [p2|]; cbn [obind]; auto.
Qed.
