(** Correctness of the breadth-first searches bfs_push and bfs_pull, for any visit function with a small contract. *)
From Verif Require Import Base GraphModel TagModel QueueModel.

(** walks of n steps from a seed *)
Inductive walk (A : nat -> nat -> Prop) (S0 : list nat) : nat -> nat -> Prop :=
| walk0 e : In e S0 -> walk A S0 0 e
| walkS n a b : walk A S0 n a -> A a b -> walk A S0 (S n) b.

Definition vz (s : inputs) (e : nat) : Z := match aget (in_vis s) e with Some z => z | None => (-1)%Z end.

Section BFS.
Variables (ne nv : nat) (pl il : nat -> list nat).
(** two edges are adjacent when they share a local vertex *)
Definition adj (a b : nat) : Prop := exists v, v < nv /\ In v (pl a) /\ In b (il v).

(** the array of seeds holds L *)
Definition Seeds (L : list nat) (s : inputs) : Prop :=
  length (in_seeds s) = ne /\ in_n s = length L /\ (forall i, i < length L -> aget (in_seeds s) i = nth_error L i) /\ NoDup L /\ forall e, In e L -> e < ne.
(** exactly the edges of L have a depth *)
Definition Vis (L : list nat) (s : inputs) : Prop :=
  length (in_vis s) = ne /\ (forall e, e < ne -> exists z, aget (in_vis s) e = Some z) /\ (forall e, In e L -> (0 <= vz s e)%Z) /\ (forall e, ~ In e L -> vz s e = (-1)%Z).
Definition Core (L : list nat) (s : inputs) : Prop := Seeds L s /\ Vis L s.

Lemma core_get L s e : Core L s -> e < ne -> aget (in_vis s) e = Some (vz s e).
Proof. intros (_ & _ & V & _) H. unfold vz. destruct (V e H) as (z & ->). reflexivity. Qed.
Lemma core_in L s e : Core L s -> (In e L <-> vz s e <> (-1)%Z).
Proof. intros (_ & _ & _ & A & B). split; [intros H; apply A in H; lia|]. intros H. destruct (in_dec Nat.eq_dec e L); auto. exfalso. auto. Qed.
Lemma seeds_full L s e : Seeds L s -> ~ In e L -> e < ne -> length L < ne.
Proof.
  intros (_ & _ & _ & N & B) NI L1. assert (H : length (e :: L) <= length (seq 0 ne)). { apply NoDup_incl_length; [constructor; auto|]. intros x [<-|Hx]; apply in_seq; [lia|]. apply B in Hx. lia. }
  rewrite seq_length in H. cbn in H. lia.
Qed.
Lemma seeds_le L s : Seeds L s -> length L <= ne.
Proof. intros (_ & _ & _ & N & B). rewrite <- (seq_length ne 0). apply NoDup_incl_length; auto. intros x Hx. apply in_seq. apply B in Hx. lia. Qed.
(** adding a seed with a depth *)
Lemma core_add L s b z s' : Core L s -> ~ In b L -> b < ne -> (0 <= z)%Z -> aset (in_seeds s) (in_n s) b = Some (in_seeds s') -> in_n s' = in_n s + 1 -> aset (in_vis s) b z = Some (in_vis s') ->
  Core (L ++ [b]) s' /\ vz s' b = z /\ forall e, e <> b -> vz s' e = vz s e.
Proof using Type.
  clear pl il nv.
  intros (HS & HV) NI Lb Hz E1 E2 E3. destruct HS as (S1 & S2 & S3 & S4 & S5). destruct HV as (V1 & V2 & V3 & V4). apply aset_inv in E1 as (L1 & E1). apply aset_inv in E3 as (L3 & E3).
  assert (VB : vz s' b = z) by (unfold vz; rewrite E3, aget_upd_eq by auto; reflexivity).
  assert (VE : forall e, e <> b -> vz s' e = vz s e) by (intros e Ne; unfold vz; rewrite E3, aget_upd_neq by auto; reflexivity).
  split; [split|auto].
  - unfold Seeds. rewrite E1, upd_length, E2, app_length. cbn [length]. split; [auto|]. split; [lia|]. split; [|split].
    + intros i Hi. rewrite S2. destruct (Nat.eq_dec i (length L)) as [->|N].
      * rewrite aget_upd_eq by lia. rewrite nth_error_app2, Nat.sub_diag by lia. reflexivity.
      * rewrite aget_upd_neq by auto. rewrite nth_error_app1 by lia. apply S3. lia.
    + apply (Permutation_NoDup (Permutation_cons_append L b)). constructor; auto.
    + intros e He. apply in_app_iff in He as [He|[<-|[]]]; auto.
  - unfold Vis. rewrite E3, upd_length. repeat split; auto.
    + intros e He. destruct (Nat.eq_dec e b) as [->|N]; [exists z; now rewrite aget_upd_eq by auto|]. rewrite aget_upd_neq by auto. auto.
    + intros e He. destruct (Nat.eq_dec e b) as [->|N]; [lia|]. rewrite VE by auto. apply in_app_iff in He as [He|[He|[]]]; [auto|congruence].
    + intros e He. rewrite in_app_iff in He. destruct (Nat.eq_dec e b) as [->|N]; [exfalso; apply He; right; left; auto|]. rewrite VE by auto. apply V4. tauto.
Qed.

(** ** visiting the edges of one vertex from one source *)
Variables (visit : visitFn) (X : list nat -> inputs -> Prop) (J : inputs -> nat -> nat -> Prop) (Old : nat -> Prop).
(** the contract of a visit function *)
Definition contract : Prop := forall L s a b, Core L s -> X L s -> In a L -> ~ Old a -> b < ne -> ~ Old b -> adj a b ->
  exists s' f, visit s a b = Some (s', f) /\ (forall c d, J s c d -> J s' c d) /\ J s' a b /\
    ((In b L /\ f = false /\ Core L s' /\ X L s' /\ forall e, vz s' e = vz s e) \/
     (~ In b L /\ f = true /\ Core (L ++ [b]) s' /\ X (L ++ [b]) s' /\ vz s' b = (vz s a + 1)%Z /\ forall e, e <> b -> vz s' e = vz s e)).
Hypothesis HC : contract.

Record visited_from (a : nat) (bs L N : list nat) (s s' : inputs) : Prop := {
  vf_core : Core (L ++ N) s'; vf_X : X (L ++ N) s';
  vf_new : forall b, In b N -> In b bs /\ vz s' b = (vz s a + 1)%Z;
  vf_same : forall e, ~ In e N -> vz s' e = vz s e;
  vf_all : forall b, In b bs -> In b (L ++ N) /\ (b = a \/ J s' a b);
  vf_J : forall c d, J s c d -> J s' c d }.
Lemma core_nodup L s : Core L s -> NoDup L. Proof. intros ((_ & _ & _ & N & _) & _). auto. Qed.
Lemma vf_nil a L s : Core L s -> X L s -> visited_from a [] L [] s s.
Proof. intros C HX. split; rewrite ?app_nil_r; auto; intros b []. Qed.
Lemma vf_step a bs L N s s' b : visited_from a bs L N s s' -> In a L -> ~ Old a -> b < ne -> ~ Old b -> adj a b ->
  exists s2 f N2, visit s' a b = Some (s2, f) /\ visited_from a (bs ++ [b]) L N2 s s2 /\ length N2 = length N + if f : bool then 1 else 0.
Proof.
  intros [C HX VN VS VA VJ] Ha Oa Lb Ob AB. destruct (HC (L ++ N) s' a b C HX) as (s2 & f & E & MJ & JJ & CASE); auto; [apply in_app_iff; auto|].
  assert (AN : ~ In a N). { intros I. pose proof (core_nodup _ _ C) as ND. clear - ND I Ha. induction L as [|x L IH]; [destruct Ha|]. inversion ND; subst. destruct Ha as [->|Ha]; auto. apply H1, in_app_iff. auto. }
  destruct CASE as [(I & -> & C2 & X2 & V2)|(I & -> & C2 & X2 & VB & V2)].
  - exists s2, false, N. split; auto. split; [|lia]. split; auto.
    + intros c Hc. rewrite V2. destruct (VN c Hc) as (A & B). split; auto. apply in_app_iff. auto.
    + intros e He. rewrite V2. auto.
    + intros c Hc. apply in_app_iff in Hc as [Hc|[<-|[]]]; [|auto]. destruct (VA c Hc) as (A & [B|B]); split; auto.
  - exists s2, true, (N ++ [b]). split; auto. split; [|rewrite app_length; cbn; lia]. split; rewrite ?app_assoc; auto.
    + intros c Hc. apply in_app_iff in Hc as [Hc|[<-|[]]].
      * destruct (VN c Hc) as (A & B). split; [apply in_app_iff; auto|]. rewrite V2; auto. intros ->. apply I, in_app_iff. auto.
      * split; [apply in_app_iff; right; left; auto|]. rewrite VB, VS by auto. reflexivity.
    + intros e He. rewrite in_app_iff in He. rewrite V2, VS; auto. intros ->. apply He. right; left; auto.
    + intros c Hc. apply in_app_iff in Hc as [Hc|[<-|[]]]; [|split; [apply in_app_iff; right; left; auto|auto]]. destruct (VA c Hc) as (A & B). split; [apply in_app_iff; auto|]. destruct B; auto.
Qed.

(** the outcome of a search from the seeds S0 that starts at a given depth *)
Record Result (depth : Z) (O S0 R : list nat) (s s' : inputs) : Prop := {
  r_core : Core (O ++ R) s'; r_X : X (O ++ R) s'; r_pre : exists N, R = S0 ++ N;
  r_dist : forall e, In e R -> exists d, vz s' e = (depth + Z.of_nat d)%Z /\ walk adj S0 d e /\ forall n, walk adj S0 n e -> d <= n;
  r_all : forall n e, walk adj S0 n e -> In e R;
  r_old : forall e, ~ In e R -> vz s' e = vz s e;
  r_mono : forall i j a b, i <= j -> nth_error R i = Some a -> nth_error R j = Some b -> (vz s' a <= vz s' b)%Z;
  r_J : forall a v, In a R -> v < nv -> In v (pl a) -> exists c, In c R /\ In v (pl c) /\ forall b, In b (il v) -> b = c \/ J s' c b }.
(** once every vertex of every edge of R has been handled by the nearest of its edges, the depths are distances *)
Lemma result_of depth O S0 R s s' : Core (O ++ R) s' -> X (O ++ R) s' -> (exists N, R = S0 ++ N) -> (forall e, In e S0 -> vz s' e = depth) ->
  (forall e, In e R -> exists d, vz s' e = (depth + Z.of_nat d)%Z /\ walk adj S0 d e) -> (forall e, ~ In e R -> vz s' e = vz s e) ->
  (forall i j a b, i <= j -> nth_error R i = Some a -> nth_error R j = Some b -> (vz s' a <= vz s' b)%Z) ->
  (forall a v, In a R -> v < nv -> In v (pl a) -> exists c, In c R /\ In v (pl c) /\ (vz s' c <= vz s' a)%Z /\ forall b, In b (il v) -> In b R /\ (vz s' b <= vz s' c + 1)%Z /\ (b = c \/ J s' c b)) ->
  Result depth O S0 R s s'.
Proof.
  intros C HX PRE Z0 W OLD M P.
  assert (UP : forall n e, walk adj S0 n e -> In e R /\ (vz s' e <= depth + Z.of_nat n)%Z).
  { induction 1 as [e He|n a b Hw (IR & IV) (v & Lv & Pv & Hb)].
    - split; [destruct PRE as (N & ->); apply in_app_iff; auto|rewrite Z0 by auto; lia].
    - destruct (P a v IR Lv Pv) as (c & Hc & _ & Lc & HB). destruct (HB b Hb) as (B1 & B2 & _). split; auto. lia. }
  split; auto.
  - intros e He. destruct (W e He) as (d & E & Hw). exists d. split; auto. split; auto. intros n Hn. apply UP in Hn as (_ & Hn). lia.
  - intros n e Hn. apply (UP n e Hn).
  - intros a v Ha Lv Pv. destruct (P a v Ha Lv Pv) as (c & Hc & Pc & _ & HB). exists c. split; auto. split; auto. intros b Hb. apply HB. auto.
Qed.

(** ** starting *)
Lemma start_ok O S0 depth s : Seeds (O ++ S0) s -> Vis O s -> (0 <= depth)%Z ->
  exists vs, start_seeds s (length O) depth = Some (mkIn (in_seeds s) (in_n s) vs (in_osets s) (in_sets s) (in_par s) (in_size s) (in_lab s)) /\
    let s0 := mkIn (in_seeds s) (in_n s) vs (in_osets s) (in_sets s) (in_par s) (in_size s) (in_lab s) in
    Core (O ++ S0) s0 /\ (forall e, In e S0 -> vz s0 e = depth) /\ forall e, ~ In e S0 -> vz s0 e = vz s e.
Proof using Type.
  clear HC visit X J Old pl il nv.
  intros HS HV Hd. pose proof HS as (S1 & S2 & S3 & S4 & S5). pose proof HV as (V1 & V2 & V3 & V4). unfold start_seeds. assert (EN : in_n s - length O = length S0) by (rewrite S2, app_length; lia). rewrite EN. clear EN.
  assert (G : forall r D vs, S0 = D ++ r -> length vs = ne ->
     exists vs', foldM (fun v i => e <- aget (in_seeds s) i ;; aset v e depth) (seq (length O + length D) (length r)) vs = Some vs' /\ length vs' = ne /\
       (forall e, In e r -> aget vs' e = Some depth) /\ forall e, ~ In e r -> aget vs' e = aget vs e).
  { induction r as [|x r IH]; intros D vs ED LV; cbn [length seq foldM]; [exists vs; repeat split; auto; intros e []|].
    assert (GX : aget (in_seeds s) (length O + length D) = Some x). { rewrite S3 by (rewrite ED, !app_length; cbn; lia). rewrite nth_error_app2 by lia. replace (length O + length D - length O) with (length D) by lia. rewrite ED, nth_error_app2, Nat.sub_diag by lia. reflexivity. }
    rewrite GX. cbn [obind]. assert (LX : x < ne) by (apply S5, in_app_iff; right; rewrite ED; apply in_app_iff; right; left; auto). rewrite aset_some by lia. cbn [obind].
    destruct (IH (D ++ [x]) (upd vs x (Some depth))) as (vs' & E & L' & A & B); [rewrite <- app_assoc; auto|now rewrite upd_length|].
    rewrite app_length in E. cbn [length] in E. replace (S (length O + length D)) with (length O + (length D + 1)) by lia. exists vs'. split; auto. split; auto. split.
    - intros e [<-|He]; auto. destruct (in_dec Nat.eq_dec x r) as [I|I]; auto. rewrite B by auto. now rewrite aget_upd_eq by lia.
    - intros e He. rewrite B by (intros I; apply He; right; auto). apply aget_upd_neq. intros ->. apply He. left; auto. }
  destruct (G S0 [] (in_vis s) eq_refl V1) as (vs & E & LV & A & B). cbn [length] in E. rewrite Nat.add_0_r in E. rewrite E. cbn [obind]. exists vs. split; [reflexivity|]. cbv zeta.
  set (s0 := mkIn (in_seeds s) (in_n s) vs (in_osets s) (in_sets s) (in_par s) (in_size s) (in_lab s)).
  assert (VA : forall e, In e S0 -> vz s0 e = depth) by (intros e He; unfold vz; cbn [in_vis s0]; now rewrite A).
  assert (VB : forall e, ~ In e S0 -> vz s0 e = vz s e) by (intros e He; unfold vz; cbn [in_vis s0]; now rewrite B).
  split; [|auto]. split; [exact HS|]. split; [exact LV|]. split; [|split].
  - intros e He. cbn [in_vis s0]. destruct (in_dec Nat.eq_dec e S0) as [I|I]; [rewrite A by auto; eauto|]. rewrite B by auto. auto.
  - intros e He. destruct (in_dec Nat.eq_dec e S0) as [I|I]; [rewrite VA by auto; lia|]. rewrite VB by auto. apply V3. apply in_app_iff in He as [He|He]; [auto|contradiction].
  - intros e He. rewrite in_app_iff in He. rewrite VB by tauto. apply V4. tauto.
Qed.
End BFS.
