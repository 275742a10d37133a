(** C68: calls made at the wrong time. *)
From Verif Require Import Base PcuMsgModel PcuApiModel PcuApiSpec.
From Coq Require Import Sorted.

(* ------------------------------------------------------------------ *)
(** * Sorting by sender *)

Notation le_from := (fun a b : Z * nat => (fst a <= fst b)%Z).

Lemma by_from_perm m l : Permutation (by_from m l) (m :: l).
Proof.
  induction l as [|x r IH]; [reflexivity|]. cbn.
  destruct (Z.leb (fst m) (fst x)); [reflexivity|]. rewrite IH. apply perm_swap.
Qed.
Lemma by_from_sorted m l : StronglySorted le_from l -> StronglySorted le_from (by_from m l).
Proof.
  induction l as [|x r IH]; intros Hs; cbn.
  - constructor; [constructor|constructor].
  - inversion Hs as [|? ? Hr Hx]; subst.
    destruct (Z.leb_spec (fst m) (fst x)) as [Hle|Hgt].
    + constructor; [exact Hs|]. constructor; [exact Hle|].
      apply Forall_forall. intros y Hy. rewrite Forall_forall in Hx. specialize (Hx y Hy). cbn in Hx. lia.
    + constructor; [apply IH; exact Hr|].
      apply Forall_forall. intros y Hy.
      apply (Permutation_in _ (by_from_perm m r)) in Hy. destruct Hy as [<-|Hy]; [lia|].
      rewrite Forall_forall in Hx. apply Hx. exact Hy.
Qed.
Lemma in_order_gen l : forall acc, StronglySorted le_from acc ->
  let r := fold_left (fun acc m => by_from m acc) l acc in
  Permutation r (acc ++ l) /\ StronglySorted le_from r.
Proof.
  induction l as [|m l IH]; intros acc Ha; cbn.
  - rewrite app_nil_r. split; [reflexivity|exact Ha].
  - destruct (IH (by_from m acc) (by_from_sorted m acc Ha)) as [P Q]. split; [|exact Q].
    rewrite P, by_from_perm. cbn. rewrite Permutation_middle. reflexivity.
Qed.
Lemma in_order_ok l : Permutation (in_order l) l /\ StronglySorted le_from (in_order l).
Proof. apply (in_order_gen l []). constructor. Qed.
Lemma sorted_unique : forall a b : list (Z * nat), StronglySorted le_from a -> StronglySorted le_from b ->
  Permutation a b -> NoDup (map fst a) -> a = b.
Proof.
  induction a as [|x a IH]; intros b Ha Hb P N.
  - apply Permutation_nil in P. congruence.
  - destruct b as [|y b]; [symmetry in P; apply Permutation_nil in P; discriminate|].
    inversion Ha as [|? ? Ha' Hx]; subst. inversion Hb as [|? ? Hb' Hy]; subst.
    assert (E : x = y).
    { assert (I1 : In x (y :: b)) by (eapply Permutation_in; [exact P|left; reflexivity]).
      assert (I2 : In y (x :: a)) by (eapply Permutation_in; [symmetry; exact P|left; reflexivity]).
      destruct I1 as [->|I1]; [reflexivity|]. destruct I2 as [->|I2]; [reflexivity|].
      exfalso. rewrite Forall_forall in Hx, Hy.
      pose proof (Hx _ I2) as L1. pose proof (Hy _ I1) as L2. cbn in L1, L2.
      cbn in N. inversion N as [|? ? N1 N2]; subst. apply N1.
      replace (fst x) with (fst y) by lia. apply in_map. exact I2. }
    subst y. f_equal. apply IH; [exact Ha'|exact Hb'|eapply Permutation_cons_inv; exact P|].
    cbn in N. inversion N; assumption.
Qed.

(* ------------------------------------------------------------------ *)
(** * The packed buffers *)

Lemma peer_grow_size l to k t :
  peer_size (peer_grow l to k) t =
  if Z.eqb to t then Some (match peer_size l t with Some a => a + k | None => k end) else peer_size l t.
Proof.
  induction l as [|[a x] l IH]; cbn.
  - destruct (Z.eqb to t); reflexivity.
  - destruct (Z.eqb_spec a to) as [->|Hn]; cbn.
    + destruct (Z.eqb_spec to t); reflexivity.
    + rewrite IH. destruct (Z.eqb_spec a t) as [->|H2]; [|reflexivity].
      destruct (Z.eqb_spec to t); congruence.
Qed.
Lemma peer_grow_keys l to k : map fst (peer_grow l to k) = map fst l \/
  (~ In to (map fst l) /\ map fst (peer_grow l to k) = map fst l ++ [to]).
Proof.
  induction l as [|[a x] l IH]; cbn; [right; split; [tauto|reflexivity]|].
  destruct (Z.eqb_spec a to) as [->|Hn]; cbn; [left; reflexivity|].
  destruct IH as [->|[H ->]]; [left; reflexivity|right]. split; [|reflexivity]. tauto.
Qed.
Lemma peer_grow_nodup l to k : NoDup (map fst l) -> NoDup (map fst (peer_grow l to k)).
Proof.
  intros H. destruct (peer_grow_keys l to k) as [->|[N ->]]; [exact H|].
  rewrite NoDup_app_iff. split; [exact H|]. split; [repeat constructor; cbn; tauto|].
  intros z Hz. cbn. intros [E|[]]. subst. tauto.
Qed.
Lemma peer_size_in l t k : NoDup (map fst l) -> (peer_size l t = Some k <-> In (t, k) l).
Proof.
  induction l as [|[a x] l IH]; cbn; intros N; [split; [discriminate|tauto]|].
  inversion N as [|? ? N1 N2]; subst.
  destruct (Z.eqb_spec a t) as [->|Hn].
  - split; [intros [= ->]; left; reflexivity|].
    intros [[= ->]|Hi]; [reflexivity|]. exfalso. apply N1. apply (in_map fst) in Hi. exact Hi.
  - rewrite IH by exact N2. split; [tauto|]. intros [[= -> ->]|H]; [congruence|exact H].
Qed.

Lemma packed_to_app to l m : packed_to to (l ++ m) = packed_to to l ++ packed_to to m.
Proof. unfold packed_to. rewrite filter_app, map_app. reflexivity. Qed.

(* ------------------------------------------------------------------ *)
(** * What the library remembers in each situation *)

Definition no_order (b : bool) : option ostate := if b then Some NotReady else None.
Definition size_of (l : list nat) : option nat := match l with [] => None | _ => Some (nsum l) end.

Definition remembers (u : user) (s : api) : Prop :=
  a_init s = u_on u /\
  (u_on u = true ->
   match u_at u with
   | Between => a_st s = Idle /\ a_peers s = [] /\ a_cur s = 0 /\ a_cap s = 0 /\ a_order s = no_order (u_ordered u)
   | Packing l => a_st s = Packs /\ a_cur s = 0 /\ a_cap s = 0 /\ a_order s = no_order (u_ordered u)
                  /\ NoDup (map fst (a_peers s)) /\ (forall to, peer_size (a_peers s) to = size_of (packed_to to l))
   | Receiving None rest => a_st s = Recvs /\ a_cur s = 0 /\ a_cap s = 0 /\ a_order s = no_order (u_ordered u)
                  /\ (if u_ordered u then in_order (a_net s) = rest else a_net s = rest)
   | Receiving (Some (f, z, l)) rest => l <= z /\
       if u_ordered u
       then a_st s = Idle /\ a_peers s = [] /\ a_cur s = 0 /\ a_cap s = 0 /\ a_order s = Some (Ready f (z - l) z rest)
       else a_st s = Recvs /\ a_cap s = z /\ a_cur s = z - l /\ a_from s = f /\ a_net s = rest /\ a_order s = None
   end).

Lemma remembers0 : remembers user0 api0.
Proof. split; [reflexivity|discriminate]. Qed.

Local Arguments in_order : simpl never.
Section N.
Variable n : nat.

Lemma good_rank_iff to : good_rank n to = true <-> (0 <= to < Z.of_nat n)%Z.
Proof. unfold good_rank. rewrite andb_true_iff, Z.leb_le, Z.ltb_lt. tauto. Qed.

Lemma too_big peers l : NoDup (map fst peers) -> (forall to, peer_size peers to = size_of (packed_to to l)) ->
  (existsb (fun p : Z * nat => Z.ltb int_max (Z.of_nat (snd p))) peers = false <->
   forall to, (Z.of_nat (nsum (packed_to to l)) <= 2147483647)%Z).
Proof.
  intros N Hp. split.
  - intros E to. specialize (Hp to). destruct (packed_to to l) as [|k ks] eqn:Ek; [cbn; lia|].
    apply peer_size_in in Hp; [|exact N].
    destruct (Z.leb_spec (Z.of_nat (nsum (k :: ks))) 2147483647) as [H|H]; [exact H|exfalso].
    assert (T : existsb (fun p : Z * nat => Z.ltb int_max (Z.of_nat (snd p))) peers = true).
    { apply existsb_exists. eexists. split; [exact Hp|]. cbn [snd]. apply Z.ltb_lt. unfold int_max. lia. }
    congruence.
  - intros H. apply not_true_iff_false. intros T. apply existsb_exists in T. destruct T as ([t k] & Hi & Hk).
    cbn [snd] in Hk. apply Z.ltb_lt in Hk. unfold int_max in Hk. apply peer_size_in in Hi; [|exact N].
    rewrite Hp in Hi. specialize (H t). unfold size_of in Hi.
    destruct (packed_to t l) as [|a r]; [discriminate|]. assert (E : nsum (a :: r) = k) by congruence. rewrite E in H. lia.
Qed.

(** an allowed call returns what the protocol says *)
Lemma allowed u c u' x s : remembers u s -> may n u c u' x -> exists s', call n s c = Ok (s', x) /\ remembers u' s'.
Proof.
  intros [Hi Hr] M. destruct s as [i o st ps cu ca fr ne].
  destruct M; destruct u as [on ord w];
    cbn [u_on u_at u_ordered a_init a_order a_st a_peers a_cur a_cap a_from a_net] in *; subst;
    try specialize (Hr eq_refl); try cbn match in Hr; unfold goto; cbn [u_on u_at u_ordered].
  - eexists. split; [reflexivity|]. split; [reflexivity|]. intros _. cbn. auto 12.
  - destruct Hr as (-> & -> & -> & -> & ->). eexists. split; [reflexivity|].
    split; [reflexivity|]. discriminate.
  - destruct Hr as (-> & -> & -> & -> & ->). eexists. split; [reflexivity|].
    split; [reflexivity|]. intros _. cbn. destruct b, ord; cbn; auto 12.
  - destruct Hr as (-> & -> & -> & -> & ->). eexists. split; [reflexivity|].
    split; [reflexivity|]. intros _. cbn. repeat (split; [first [reflexivity|constructor]|]).
    intros to. reflexivity.
  - destruct Hr as (-> & -> & -> & -> & N & Hp). cbn. rewrite (proj2 (good_rank_iff to)) by assumption.
    eexists. split; [reflexivity|]. split; [reflexivity|]. intros _. cbn.
    repeat (split; [reflexivity|]). split; [apply peer_grow_nodup; exact N|].
    intros t. rewrite peer_grow_size, Hp, packed_to_app. unfold packed_to at 3. cbn.
    destruct (Z.eqb_spec to t) as [->|Ht].
    + assert (A : forall b, size_of (b ++ [k]) = Some (nsum b + k)).
      { intros b. unfold size_of. destruct (b ++ [k]) as [|a r] eqn:Eb; [destruct b; discriminate|].
        rewrite <- Eb, nsum_app. change (nsum [k]) with (k + 0). f_equal. lia. }
      fold (packed_to t l). cbn [map filter fst snd]. rewrite A. destruct (packed_to t l) as [|a r]; reflexivity.
    + cbn. rewrite app_nil_r. reflexivity.
  - destruct Hr as (-> & -> & -> & -> & N & Hp). cbn. rewrite (proj2 (good_rank_iff to)) by assumption.
    rewrite Hp. destruct (packed_to to l) as [|a r] eqn:E; [congruence|]. cbn [size_of]. cbn.
    eexists. split; [reflexivity|]. split; [reflexivity|]. intros _. cbn. auto 12.
  - destruct Hr as (-> & -> & -> & -> & N & Hp). cbn.
    rewrite (proj2 (too_big ps l N Hp)) by assumption.
    eexists. split; [reflexivity|]. split; [reflexivity|]. intros _. cbn.
    repeat (split; [reflexivity|]). destruct ord; [|symmetry; auto].
    destruct (in_order_ok arrivals) as [P Q]. apply sorted_unique; [exact Q|auto| |].
    + rewrite P. symmetry. assumption.
    + rewrite (Permutation_map fst P). assumption.
  - destruct cur as [[[f0 z] l]|].
    + match goal with H : forall s z l, _ |- _ => pose proof (H _ _ _ eq_refl); subst l end.
      destruct Hr as [_ Hr]. destruct ord.
      * destruct Hr as (-> & -> & -> & -> & ->). cbn. eexists. split; [reflexivity|].
        split; [reflexivity|]. intros _. cbn. rewrite Nat.sub_diag. auto 12.
      * destruct Hr as (-> & -> & -> & -> & -> & ->). cbn. unfold msg_receive. cbn.
        rewrite Nat.sub_0_r, Nat.eqb_refl. eexists. split; [reflexivity|].
        split; [reflexivity|]. intros _. cbn. rewrite Nat.sub_diag. auto 12.
    + destruct Hr as (-> & -> & -> & -> & Hn). destruct ord.
      * cbn. unfold prepare. cbn. rewrite Hn. cbn. eexists. split; [reflexivity|].
        split; [reflexivity|]. intros _. cbn. rewrite Nat.sub_diag. auto 12.
      * subst ne. cbn. eexists. split; [reflexivity|].
        split; [reflexivity|]. intros _. cbn. rewrite Nat.sub_diag. auto 12.
  - destruct cur as [[[f0 z] l]|].
    + match goal with H : forall s z l, _ |- _ => pose proof (H _ _ _ eq_refl); subst l end.
      destruct Hr as [_ Hr]. destruct ord.
      * destruct Hr as (-> & -> & -> & -> & ->). cbn. eexists. split; [reflexivity|].
        split; [reflexivity|]. intros _. cbn. auto 12.
      * destruct Hr as (-> & -> & -> & -> & -> & ->). cbn. unfold msg_receive. cbn.
        rewrite Nat.sub_0_r, Nat.eqb_refl. eexists. split; [reflexivity|].
        split; [reflexivity|]. intros _. cbn. auto 12.
    + destruct Hr as (-> & -> & -> & -> & Hn). destruct ord.
      * cbn. unfold prepare. cbn. rewrite Hn. cbn. eexists. split; [reflexivity|].
        split; [reflexivity|]. intros _. cbn. auto 12.
      * subst ne. cbn. eexists. split; [reflexivity|].
        split; [reflexivity|]. intros _. cbn. auto 12.
  - destruct Hr as [Hl Hr]. destruct ord.
    + destruct Hr as (-> & -> & -> & -> & ->). cbn. replace (z - l =? z) with (l =? 0).
      * eexists. split; [reflexivity|]. split; [reflexivity|]. intros _. cbn. auto 12.
      * apply eq_true_iff_eq. rewrite !Nat.eqb_eq. split; intros; lia.
    + destruct Hr as (-> & -> & -> & -> & -> & ->). cbn. replace (z - l =? z) with (l =? 0).
      * eexists. split; [reflexivity|]. split; [reflexivity|]. intros _. cbn. auto 12.
      * apply eq_true_iff_eq. rewrite !Nat.eqb_eq. split; intros; lia.
  - destruct Hr as [Hl Hr]. destruct ord.
    + destruct Hr as (-> & -> & -> & -> & ->). cbn -[Nat.ltb]. rewrite (proj2 (Nat.ltb_ge z (z - l + k))) by lia.
      eexists. split; [reflexivity|]. split; [reflexivity|]. intros _. cbn.
      replace (z - (l - k)) with (z - l + k) by lia. split; [lia|auto 10].
    + destruct Hr as (-> & -> & -> & -> & -> & ->). cbn -[Nat.ltb]. rewrite (proj2 (Nat.ltb_ge z (z - l + k))) by lia.
      eexists. split; [reflexivity|]. split; [reflexivity|]. intros _. cbn.
      replace (z - (l - k)) with (z - l + k) by lia. split; [lia|auto 10].
  - destruct Hr as [Hl Hr]. destruct ord.
    + destruct Hr as (-> & -> & -> & -> & ->). cbn.
      eexists. split; [reflexivity|]. split; [reflexivity|]. intros _. cbn. auto 12.
    + destruct Hr as (-> & -> & -> & -> & -> & ->). cbn.
      eexists. split; [reflexivity|]. split; [reflexivity|]. intros _. cbn. auto 12.
  - destruct Hr as [Hl Hr]. destruct ord.
    + destruct Hr as (-> & -> & -> & -> & ->). cbn.
      eexists. split; [reflexivity|]. split; [reflexivity|]. intros _. cbn. auto 12.
    + destruct Hr as (-> & -> & -> & -> & -> & ->). cbn.
      eexists. split; [reflexivity|]. split; [reflexivity|]. intros _. cbn. auto 12.
Qed.

Lemma proper_run u ops u' xs : proper n u ops u' xs -> forall s, remembers u s ->
  exists s', calls n s ops = Ok (s', xs) /\ remembers u' s'.
Proof.
  induction 1 as [u|u c u1 x l u2 xs M P IH]; intros s R.
  - exists s. split; [reflexivity|exact R].
  - destruct (allowed _ _ _ _ _ R M) as (s1 & E & R1). destruct (IH _ R1) as (s2 & E2 & R2).
    exists s2. split; [|exact R2]. cbn. rewrite E, E2. reflexivity.
Qed.
Lemma calls_app a : forall s b, calls n s (a ++ b) =
  match calls n s a with
  | Ok (s1, xs) => match calls n s1 b with Ok (s2, ys) => Ok (s2, xs ++ ys) | Refused => Refused | Undefined => Undefined end
  | Refused => Refused
  | Undefined => Undefined
  end.
Proof.
  induction a as [|c a IH]; intros s b; cbn.
  - destruct (calls n s b) as [[s2 ys]| |]; reflexivity.
  - destruct (call n s c) as [[s1 x]| |]; [|reflexivity|reflexivity]. rewrite IH.
    destruct (calls n s1 a) as [[s2 ys]| |]; [|reflexivity|reflexivity].
    destruct (calls n s2 b) as [[s3 zs]| |]; reflexivity.
Qed.

Lemma calls1 s c : calls n s [c] = match call n s c with Ok (s1, x) => Ok (s1, [x]) | Refused => Refused | Undefined => Undefined end.
Proof. cbn. destruct (call n s c) as [[s1 x]| |]; reflexivity. Qed.

(** a forbidden call is refused, except those listed *)
Lemma forbidden u c s : remembers u s -> (forall u' x, ~ may n u c u' x) -> senders_distinct c ->
  (call n s c = Refused <-> ~ unchecked u c).
Proof.
  intros [Hi Hr] M D. unfold unchecked, current_of. destruct s as [i o st ps cu ca fr ne].
  destruct u as [on ord w]. cbn [u_on u_at u_ordered a_init a_order a_st a_peers a_cur a_cap a_from a_net] in *. subst i.
  destruct on.
  2:{ split; [intros _ [H _]; discriminate|intros _]. destruct c; try reflexivity.
      exfalso. eapply M. apply may_init. reflexivity. }
  specialize (Hr eq_refl).
  destruct c as [| |b| |to k|to|arr| | |k| |]; cbn [call a_init negb].
  - split; [tauto|reflexivity].
  - split; [|tauto]. cbn. destruct st, ps; discriminate.
  - split; [discriminate|tauto].
  - destruct w as [|l|[[[f z] l]|] rest].
    + exfalso. eapply M. apply may_begin; reflexivity.
    + destruct Hr as (-> & _). cbn. split; [intros _ [_ [_ H]]; congruence|reflexivity].
    + destruct Hr as [_ Hr]. destruct ord; destruct Hr as (-> & _); cbn.
      * split; [discriminate|]. intros H. exfalso. apply H. repeat split. discriminate.
      * split; [intros _ [_ [H _]]; discriminate|reflexivity].
    + destruct Hr as (-> & _). cbn. split; [intros _ [_ [_ H]]; congruence|reflexivity].
  - split; [tauto|intros _]. cbn [a_st a_init]. destruct (good_rank n to) eqn:G; [|reflexivity].
    apply good_rank_iff in G. destruct w as [|l|[[[f z] l]|] rest].
    + destruct Hr as (-> & _). reflexivity.
    + exfalso. eapply M. eapply may_pack; [reflexivity|reflexivity|exact G].
    + destruct Hr as [_ Hr]. destruct ord; destruct Hr as (-> & _); reflexivity.
    + destruct Hr as (-> & _). reflexivity.
  - split; [tauto|intros _]. cbn [a_st a_init a_peers]. destruct (good_rank n to) eqn:G; [|reflexivity].
    apply good_rank_iff in G. destruct w as [|l|[[[f z] l]|] rest].
    + destruct Hr as (-> & _). reflexivity.
    + destruct Hr as (-> & _ & _ & _ & _ & Hp). rewrite Hp. destruct (packed_to to l) eqn:E; [reflexivity|].
      exfalso. eapply M. change (Size 6) with (Size (nsum (packed_to 1%Z [(1%Z, 4); (1%Z, 2)]))); eapply may_packed; [reflexivity|reflexivity|exact G|]. rewrite E. discriminate.
    + destruct Hr as [_ Hr]. destruct ord; destruct Hr as (-> & _); reflexivity.
    + destruct Hr as (-> & _). reflexivity.
  - split; [tauto|intros _]. cbn [a_st a_init a_peers]. destruct w as [|l|[[[f z] l]|] rest].
    + destruct Hr as (-> & _). reflexivity.
    + destruct Hr as (-> & _ & _ & _ & N & Hp).
      destruct (existsb _ ps) eqn:E; [reflexivity|].
      pose proof (proj1 (too_big ps l N Hp) E) as B. exfalso.
      destruct (in_order_ok arr) as [P Q].
      eapply M. eapply (may_send n _ l arr (if ord then in_order arr else arr)); [reflexivity|reflexivity|exact B| | | |exact D].
      * destruct ord; [exact P|reflexivity].
      * cbn. intros ->. reflexivity.
      * cbn. intros ->. exact Q.
    + destruct Hr as [_ Hr]. destruct ord; destruct Hr as (-> & _); reflexivity.
    + destruct Hr as (-> & _). reflexivity.
  - cbn [a_order]. destruct w as [|l|[[[f z] l]|] rest].
    + destruct Hr as (-> & _ & _ & _ & ->). split; [intros _ [_ [_ H]]; congruence|]. destruct ord; reflexivity.
    + destruct Hr as (-> & _ & _ & -> & _). split; [intros _ [_ [_ H]]; congruence|]. destruct ord; reflexivity.
    + destruct (Nat.eq_dec l 0) as [->|Hl].
      * exfalso. destruct rest as [|[g k] rest]; eapply M.
        -- eapply may_end; [reflexivity|reflexivity|]. intros ? ? ? [= _ _ <-]. reflexivity.
        -- eapply may_listen; [reflexivity|reflexivity|]. intros ? ? ? [= _ _ <-]. reflexivity.
      * destruct Hr as [Hle Hr]. destruct ord.
        -- destruct Hr as (_ & _ & _ & _ & ->). cbn. split; [discriminate|].
           intros H. exfalso. apply H. repeat split. discriminate.
        -- destruct Hr as (-> & -> & -> & _ & _ & ->). split; [intros _ [_ [H _]]; discriminate|].
           intros _. unfold msg_receive. cbn [a_st a_cur a_cap].
           rewrite (proj2 (Nat.eqb_neq (z - l) z)) by lia. reflexivity.
    + exfalso. destruct rest as [|[g k] rest]; eapply M.
      * eapply may_end; [reflexivity|reflexivity|]. discriminate.
      * eapply may_listen; [reflexivity|reflexivity|]. discriminate.
  - split; [|tauto]. cbn [a_order]. destruct o as [[|? ? ? ?]|]; discriminate.
  - cbn [a_order a_cap a_cur]. destruct w as [|l|[[[f z] l]|] rest].
    + destruct Hr as (_ & _ & -> & -> & ->). destruct ord; cbn.
      * split; [discriminate|]. tauto.
      * destruct k; cbn; [split; [discriminate|tauto]|]. split; [intros _ [_ [_ [H|H]]]; discriminate|reflexivity].
    + destruct Hr as (_ & -> & -> & -> & _). destruct ord; cbn.
      * split; [discriminate|]. tauto.
      * destruct k; cbn; [split; [discriminate|tauto]|]. split; [intros _ [_ [_ [H|H]]]; discriminate|reflexivity].
    + split; [intros _ [_ [H _]]; discriminate|intros _].
      assert (Hk : l < k).
      { destruct (le_lt_dec k l) as [H|H]; [|exact H]. exfalso. eapply M. eapply may_unpack; [reflexivity|reflexivity|exact H]. }
      destruct Hr as [Hle Hr]. destruct ord.
      * destruct Hr as (_ & _ & _ & _ & ->). rewrite (proj2 (Nat.ltb_lt z (z - l + k))) by lia. reflexivity.
      * destruct Hr as (_ & -> & -> & _ & _ & ->). rewrite (proj2 (Nat.ltb_lt z (z - l + k))) by lia. reflexivity.
    + destruct Hr as (_ & -> & -> & -> & _). destruct ord; cbn.
      * split; [discriminate|]. tauto.
      * destruct k; cbn; [split; [discriminate|tauto]|]. split; [intros _ [_ [_ [H|H]]]; discriminate|reflexivity].
  - split; [|tauto]. cbn [a_order]. destruct o as [[|? ? ? ?]|]; discriminate.
  - split; [|tauto]. cbn [a_order]. destruct o as [[|? ? ? ?]|]; discriminate.
Qed.

(* ------------------------------------------------------------------ *)
(** * The theorems *)

(** a program that keeps to the protocol is never refused, meets no undefined behaviour, and every
    call returns what the protocol says: with ordering on, the messages come in the order of their
    senders, otherwise in the order of arrival *)
Theorem C68_proper : forall ops u xs, proper n user0 ops u xs -> exists s, calls n api0 ops = Ok (s, xs).
Proof. intros ops u xs P. destruct (proper_run _ _ _ _ P _ remembers0) as (s & E & _). exists s. exact E. Qed.

(** after any such program, a call that the protocol does not allow is refused, except exactly those
    of the list [unchecked] *)
Theorem C68_refused_partial : forall ops u xs c, proper n user0 ops u xs ->
  (forall u' x, ~ may n u c u' x) -> senders_distinct c ->
  (calls n api0 (ops ++ [c]) = Refused <-> ~ unchecked u c).
Proof.
  intros ops u xs c P M D. destruct (proper_run _ _ _ _ P _ remembers0) as (s & E & R).
  rewrite calls_app, E, calls1, <- (forbidden u c s R M D).
  destruct (call n s c) as [[s1 x]| |]; split; intros H; try reflexivity; discriminate.
Qed.

(** with ordering on there is no message to ask about between the phases, while packing and before the
    first Listen: Unpack, Sender and Received then read through a null pointer *)
Theorem C68_no_message_refuted : forall ops u xs c, proper n user0 ops u xs -> u_on u = true -> u_ordered u = true ->
  current_of u = None -> (c = CSender \/ c = CReceived \/ exists k, c = CUnpack k) ->
  calls n api0 (ops ++ [c]) = Undefined.
Proof.
  intros ops u xs c P On Ord C Hc. destruct (proper_run _ _ _ _ P _ remembers0) as (s & E & Hi & R).
  rewrite calls_app, E, calls1. specialize (R On). rewrite On in Hi.
  assert (O : a_order s = Some NotReady).
  { rewrite Ord in R. unfold current_of in C. destruct (u_at u) as [|l|[cur|] rest]; [| |discriminate|].
    - destruct R as (_ & _ & _ & _ & R). exact R.
    - destruct R as (_ & _ & _ & R & _). exact R.
    - destruct R as (_ & _ & _ & R & _). exact R. }
  destruct Hc as [->|[->|[k ->]]]; cbn; rewrite Hi, O; reflexivity.
Qed.

(** with ordering on, Listen while bytes of the current message are left is accepted and drops them *)
Theorem C68_skipped_refuted : forall ops u xs f z l g k rest, proper n user0 ops u xs -> u_on u = true -> u_ordered u = true ->
  u_at u = Receiving (Some (f, z, l)) ((g, k) :: rest) ->
  exists s, calls n api0 (ops ++ [CListen; CSender; CReceived]) = Ok (s, xs ++ [Bool true; Rank g; Size k]).
Proof.
  intros ops u xs f z l g k rest P On Ord At. destruct (proper_run _ _ _ _ P _ remembers0) as (s & E & Hi & R).
  rewrite calls_app, E. specialize (R On). rewrite On in Hi. rewrite At, Ord in R. destruct R as (_ & _ & _ & _ & _ & O).
  cbn. rewrite Hi. cbn. rewrite O. cbn. rewrite Hi. cbn. eexists. reflexivity.
Qed.

(** with ordering on, Begin is accepted while messages are waiting, and the Listen of the new phase
    delivers those of the previous phase, whatever is sent in the new one *)
Theorem C68_stale_refuted : forall ops u xs f z l g k rest arrivals, proper n user0 ops u xs -> u_on u = true -> u_ordered u = true ->
  u_at u = Receiving (Some (f, z, l)) ((g, k) :: rest) ->
  exists s, calls n api0 (ops ++ [CBegin; CSend arrivals; CListen; CSender; CReceived])
            = Ok (s, xs ++ [Void; Void; Bool true; Rank g; Size k]).
Proof.
  intros ops u xs f z l g k rest arrivals P On Ord At. destruct (proper_run _ _ _ _ P _ remembers0) as (s & E & Hi & R).
  rewrite calls_app, E. specialize (R On). rewrite On in Hi. rewrite At, Ord in R. destruct R as (_ & St & Ps & _ & _ & O).
  cbn. rewrite Hi, St. cbn. rewrite Ps. cbn. rewrite O. cbn. eexists. reflexivity.
Qed.

(** switching the ordering off while ordered messages are waiting loses them: the phase is over for
    the library, the next Listen is refused *)
Theorem C68_lost_refuted : forall ops u xs cur rest, proper n user0 ops u xs -> u_on u = true -> u_ordered u = true ->
  u_at u = Receiving (Some cur) rest ->
  (exists s, calls n api0 (ops ++ [COrder false]) = Ok (s, xs ++ [Void]))
  /\ calls n api0 (ops ++ [COrder false; CListen]) = Refused.
Proof.
  intros ops u xs cur rest P On Ord At. destruct (proper_run _ _ _ _ P _ remembers0) as (s & E & Hi & R).
  rewrite !calls_app, E. specialize (R On). rewrite On in Hi. rewrite At, Ord in R. destruct cur as [[f z] l].
  destruct R as (_ & St & Ps & _ & _ & O).
  cbn. rewrite Hi. cbn. split; [eexists; reflexivity|]. unfold msg_receive. cbn. rewrite St. reflexivity.
Qed.

(** PCU_Comm_Free right after PCU_Comm_Send, when something was packed: the buffers of the sends in
    flight are freed *)
Theorem C68_free_refuted : forall ops u xs p l arrivals, proper n user0 ops u xs -> u_on u = true ->
  u_at u = Packing (p :: l) -> (forall to, (Z.of_nat (nsum (packed_to to (p :: l))) <= 2147483647)%Z) ->
  calls n api0 (ops ++ [CSend arrivals; CFree]) = Undefined.
Proof.
  intros ops u xs [to k] l arrivals P On At F. destruct (proper_run _ _ _ _ P _ remembers0) as (s & E & Hi & R).
  rewrite calls_app, E. specialize (R On). rewrite On in Hi. rewrite At in R. destruct R as (St & _ & _ & _ & N & Hp).
  cbn [calls call]. rewrite Hi, St. cbn [negb]. rewrite (proj2 (too_big _ _ N Hp) F).
  cbn [call a_init negb a_st a_peers]. specialize (Hp to). unfold packed_to in Hp. cbn [filter fst] in Hp.
  rewrite Z.eqb_refl in Hp. destruct (a_peers s); [discriminate|reflexivity].
Qed.
End N.

(** so not every call made at the wrong time is refused *)
Definition late_begin : list op := [CInit; CBegin; CSend [(1%Z, 4); (0%Z, 8)]; CListen].
Lemma late_begin_proper :
  proper 2 user0 late_begin (mkUser true true (Receiving (Some (0%Z, 8, 8)) [(1%Z, 4)])) [Void; Void; Void; Bool true].
Proof.
  eapply proper_cons; [apply may_init; reflexivity|].
  eapply proper_cons; [apply may_begin; reflexivity|].
  eapply proper_cons.
  { eapply (may_send 2 _ [] _ [(0%Z, 8); (1%Z, 4)]); [reflexivity|reflexivity| |apply perm_swap|discriminate| |].
    - intros to. cbn. lia.
    - intros _. repeat constructor. cbn. lia.
    - cbn. repeat constructor; cbn; intros H; repeat (destruct H as [H|H]; [discriminate|]); exact H. }
  eapply proper_cons; [|apply proper_nil].
  eapply may_listen; [reflexivity|reflexivity|discriminate].
Qed.
Theorem C68_refuted : ~ (forall n ops u xs c, proper n user0 ops u xs -> (forall u' x, ~ may n u c u' x) ->
  senders_distinct c -> calls n api0 (ops ++ [c]) = Refused).
Proof.
  intros H. specialize (H 2 late_begin _ _ CBegin late_begin_proper).
  assert (A : forall u' x, ~ may 2 (mkUser true true (Receiving (Some (0%Z, 8, 8)) [(1%Z, 4)])) CBegin u' x).
  { intros u' x M. inversion M. discriminate. }
  specialize (H A I). vm_compute in H. discriminate.
Qed.

(* ------------------------------------------------------------------ *)
(** * EnGPar_Initialize and EnGPar_Finalize *)

Definition life0 : life := mkLife false false.
Definition running (w : option who) : bool := match w with Some _ => true | None => false end.

Lemma life_run_app a : forall s b, life_run s (a ++ b) =
  match life_run s a with Ok s1 => life_run s1 b | Refused => Refused | Undefined => Undefined end.
Proof.
  induction a as [|o a IH]; intros s b; cbn; [reflexivity|].
  destruct (life_step s o); [apply IH|reflexivity|reflexivity].
Qed.
Lemma owned_snoc h o : owned (h ++ [o]) = own_step (owned h) o.
Proof. unfold owned. rewrite fold_left_app. reflexivity. Qed.

(** as long as the application does not initialise PCU again after EnGPar did, no call is refused and
    EnGPar_Finalize frees PCU exactly when EnGPar_Initialize had initialised it *)
Theorem C68_lifecycle_partial : forall h, sensible h -> app_first h ->
  exists s, life_run life0 h = Ok s /\ l_pcu s = running (owned h).
Proof.
  intros h S F.
  enough (exists s, life_run life0 h = Ok s /\ l_pcu s = running (owned h)
    /\ (owned h = Some EnGPar -> l_handling s = true)
    /\ (l_handling s = true -> owned h <> Some App /\ exists h1 h2, h = h1 ++ EngInit :: h2 /\ owned h1 = None)) as (s & A & B & _)
    by (exists s; split; [exact A|exact B]).
  revert S F. induction h as [|o h IH] using rev_ind; intros S F.
  - exists life0. repeat split; try reflexivity; discriminate.
  - destruct IH as (s & E & Ep & Eh & Hh).
    { intros h1 x h2 Eq. apply (S h1 x (h2 ++ [o])). rewrite Eq, <- app_assoc. reflexivity. }
    { intros h1 h2 h3 Eq. apply (F h1 h2 (h3 ++ [o])). rewrite Eq, <- !app_assoc. cbn. rewrite <- app_assoc. reflexivity. }
    rewrite life_run_app, E, owned_snoc. cbn [life_run].
    pose proof (S h o [] eq_refl) as So.
    assert (Ext : (exists h1 h2, h = h1 ++ EngInit :: h2 /\ owned h1 = None) ->
                  exists h1 h2, h ++ [o] = h1 ++ EngInit :: h2 /\ owned h1 = None).
    { intros (h1 & h2 & Eq & O). exists h1, (h2 ++ [o]). rewrite Eq, <- app_assoc. split; [reflexivity|exact O]. }
    destruct s as [pc ha]. cbn [l_pcu l_handling] in *. destruct o; cbn [life_step l_pcu l_handling].
    + rewrite So in *. cbn in Ep. subst pc. cbn. eexists. split; [reflexivity|]. cbn.
      split; [reflexivity|]. split; [discriminate|].
      intros Ha. exfalso. destruct (Hh Ha) as (_ & h1 & h2 & Eq & O).
      apply (F h1 h2 []); [|exact O]. rewrite Eq, <- app_assoc. reflexivity.
    + rewrite So in *. cbn in Ep. subst pc. cbn. eexists. split; [reflexivity|]. cbn.
      split; [reflexivity|]. split; [discriminate|]. intros Ha. split; [discriminate|]. apply Ext, Hh. exact Ha.
    + destruct (owned h) as [w|] eqn:O; cbn in Ep; subst pc; cbn.
      * eexists. split; [reflexivity|]. cbn. split; [reflexivity|]. split; [exact Eh|].
        intros Ha. destruct (Hh Ha) as [A B]. split; [exact A|apply Ext; exact B].
      * eexists. split; [reflexivity|]. cbn. split; [reflexivity|]. split; [reflexivity|].
        intros _. split; [discriminate|]. exists h, []. split; [reflexivity|exact O].
    + destruct (owned h) as [[|]|] eqn:O; cbn in Ep; subst pc; cbn.
      * destruct ha; [exfalso; apply Hh; reflexivity|].
        cbn. eexists. split; [reflexivity|]. cbn. repeat split; discriminate.
      * rewrite (Eh eq_refl). cbn. eexists. split; [reflexivity|]. cbn. split; [reflexivity|]. split; [discriminate|].
        intros _. split; [discriminate|]. apply Ext, Hh. apply Eh. reflexivity.
      * rewrite andb_false_r. eexists. split; [reflexivity|]. cbn. split; [reflexivity|]. split; [discriminate|].
        intros Ha. destruct (Hh Ha) as [A B]. split; [exact A|apply Ext; exact B].
Qed.

(** but handlingPCU is never reset: after EnGPar initialised and freed PCU once, EnGPar_Finalize frees
    the PCU that the application initialised later, and the application's own PCU_Comm_Free is refused *)
Definition reused : list lop := [EngInit; EngFinalize; AppInit; EngInit; EngFinalize].
Theorem C68_lifecycle_refuted :
  sensible (reused ++ [AppFree]) /\ owned reused = Some App
  /\ (exists s, life_run life0 reused = Ok s /\ l_pcu s = false)
  /\ life_run life0 (reused ++ [AppFree]) = Refused.
Proof.
  repeat split; try reflexivity; [|eexists; split; reflexivity].
  intros h1 o h2 E. unfold reused in E. cbn in E.
  repeat (destruct h1 as [|? h1]; [cbn in E; injection E as <- <-; try reflexivity; exact I|cbn in E; injection E as <- E]).
  destruct h1; discriminate.
Qed.

(* ------------------------------------------------------------------ *)
(** * The hypotheses are met *)

(** a phase of rank 0 of 2: two messages packed, two received in the order of their senders *)
Definition whole_phase : list op :=
  [CInit; CBegin; CPack 1%Z 4; CPack 1%Z 2; CPacked 1%Z; CPack 0%Z 1; CSend [(1%Z, 4); (0%Z, 8)];
   CListen; CSender; CUnpack 8; CUnpacked; CListen; CReceived; CUnpack 4; CListen; COrder false; CFree].
Example whole_phase_proper : proper 2 user0 whole_phase (mkUser false false Between)
  [Void; Void; Void; Void; Size 6; Void; Void; Bool true; Rank 0%Z; Void; Bool true; Bool true; Size 4; Void; Bool false; Void; Void].
Proof.
  unfold whole_phase.
  eapply proper_cons; [apply may_init; reflexivity|].
  eapply proper_cons; [apply may_begin; reflexivity|].
  eapply proper_cons; [eapply may_pack; [reflexivity|reflexivity|lia]|].
  eapply proper_cons; [eapply may_pack; [reflexivity|reflexivity|lia]|].
  eapply proper_cons; [change (Size 6) with (Size (nsum (packed_to 1%Z [(1%Z, 4); (1%Z, 2)]))); eapply may_packed; [reflexivity|reflexivity|lia|cbn; discriminate]|].
  eapply proper_cons; [eapply may_pack; [reflexivity|reflexivity|lia]|].
  eapply proper_cons.
  { eapply (may_send 2 _ _ _ [(0%Z, 8); (1%Z, 4)]); [reflexivity|reflexivity| |apply perm_swap|discriminate| |].
    - intros to. unfold packed_to. cbn [app filter fst]. destruct (Z.eqb 1 to), (Z.eqb 0 to); vm_compute; discriminate.
    - intros _. repeat constructor. cbn. lia.
    - cbn. repeat constructor; cbn; intros H; repeat (destruct H as [H|H]; [discriminate|]); exact H. }
  eapply proper_cons; [eapply may_listen; [reflexivity|reflexivity|discriminate]|].
  eapply proper_cons; [eapply may_sender; reflexivity|].
  eapply proper_cons; [eapply may_unpack; [reflexivity|reflexivity|lia]|].
  eapply proper_cons; [change (Bool true) with (Bool (8 - 8 =? 0)); eapply may_unpacked; reflexivity|].
  eapply proper_cons; [eapply may_listen; [reflexivity|reflexivity|intros ? ? ? [= _ _ <-]; reflexivity]|].
  eapply proper_cons; [eapply may_received; reflexivity|].
  eapply proper_cons; [eapply may_unpack; [reflexivity|reflexivity|lia]|].
  eapply proper_cons; [eapply may_end; [reflexivity|reflexivity|intros ? ? ? [= _ _ <-]; reflexivity]|].
  eapply proper_cons; [apply may_order; reflexivity|].
  eapply proper_cons; [apply may_free; reflexivity|].
  apply proper_nil.
Qed.
(** a refused call: Pack while receiving; and one to a rank that does not exist *)
Example pack_late : forall u' x, ~ may 2 (mkUser true true (Receiving (Some (0%Z, 8, 8)) [(1%Z, 4)])) (CPack 1%Z 4) u' x.
Proof. intros u' x M. inversion M. discriminate. Qed.
Example pack_late_refused : calls 2 api0 (late_begin ++ [CPack 1%Z 4]) = Refused.
Proof. apply (C68_refused_partial 2 _ _ _ _ late_begin_proper pack_late I). intros [_ []]. Qed.
Example stale_case : exists s, calls 2 api0 (late_begin ++ [CBegin; CSend [(0%Z, 100)]; CListen; CSender; CReceived])
  = Ok (s, [Void; Void; Void; Bool true] ++ [Void; Void; Bool true; Rank 1%Z; Size 4]).
Proof. exact (C68_stale_refuted 2 _ _ _ _ _ _ _ _ _ [(0%Z, 100)] late_begin_proper eq_refl eq_refl eq_refl). Qed.
(** the application initialises, EnGPar finds PCU running; later EnGPar alone *)
Example life_case : sensible [AppInit; EngInit; EngFinalize; AppFree; EngInit; EngFinalize]
  /\ app_first [AppInit; EngInit; EngFinalize; AppFree; EngInit; EngFinalize].
Proof.
  split.
  - intros h1 o h2 E. cbn in E.
    repeat (destruct h1 as [|? h1]; [cbn in E; injection E as <- <-; try reflexivity; exact I|cbn in E; injection E as <- E]).
    destruct h1; discriminate.
  - intros h1 h2 h3 E. destruct h1 as [|? [|? [|? [|? [|? h1]]]]]; inversion E; subst; try (cbn; discriminate).
    + destruct h2 as [|? [|? ?]]; discriminate.
    + destruct h1 as [|? [|? ?]]; discriminate.
Qed.

Print Assumptions C68_proper.
Print Assumptions C68_refused_partial.
Print Assumptions C68_no_message_refuted.
Print Assumptions C68_skipped_refuted.
Print Assumptions C68_stale_refuted.
Print Assumptions C68_lost_refuted.
Print Assumptions C68_free_refuted.
Print Assumptions C68_refuted.
Print Assumptions C68_lifecycle_partial.
Print Assumptions C68_lifecycle_refuted.
