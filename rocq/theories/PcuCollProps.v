(** Properties C29, C30, C55: the PCU collectives.
    Vocabulary: [runs n code prog] – every rank r < n executes the steps [prog r] that the code
    computes; [csteps m n i (cinit prog init) s] – s is reached after i moves of any ranks in any
    order, each starting with its own data [init r]; [c_pc s r = []] – the call returned on r. *)
From Verif Require Import Base PcuCollModel PcuCollExec PcuCollProofs PcuCollTop.

(** The loops terminate: every rank's step list exists. *)
Theorem C29_calls_defined : forall n r, r < n ->
  (exists l, allreduce_prog n r = Some l) /\ (exists l, scan_prog n r = Some l).
Proof.
  intros n r H. destruct (allreduce_prog_levels n r H) as (l & E & _).
  destruct (scan_prog_levels n r H) as (l' & E' & _). split; eauto.
Qed.

(** All-reduce with any associative merge: any rank that returns holds the combination of all
    ranks' data in rank order, whatever the schedule. *)
Theorem C29_allreduce : forall (A : Type) (m : A -> A -> A) n init prog i s r,
  0 < n -> (forall a b c, m (m a b) c = m a (m b c)) -> runs n allreduce_prog prog ->
  csteps m n i (cinit prog init) s -> r < n -> c_pc s r = [] ->
  c_val s r = fold_left m (map init (seq 1 (n - 1))) (init 0).
Proof. intros. eapply allreduce_value; eauto. Qed.

(** Even when the merge is not associative (floating point), all ranks return the same value. *)
Theorem C29_ranks_agree : forall (A : Type) (m : A -> A -> A) n init prog i s r q,
  runs n allreduce_prog prog -> csteps m n i (cinit prog init) s ->
  r < n -> q < n -> c_pc s r = [] -> c_pc s q = [] -> c_val s r = c_val s q.
Proof. intros. eapply allreduce_agree; eauto. Qed.

(** No schedule deadlocks, and the number of moves is bounded, so every rank returns. *)
Theorem C29_terminates : forall (A : Type) (m : A -> A -> A) n init prog i s,
  runs n allreduce_prog prog -> csteps m n i (cinit prog init) s ->
  (i <= 2 * nsum (map (fun r => length (prog r)) (seq 0 n))) /\
  (~ finished n s -> exists s', cstep m n s s').
Proof. intros; split; [eapply coll_bound; eauto | intros; eapply allreduce_progress; eauto]. Qed.

(** No message of the collective is left over for the next one. *)
Theorem C29_no_stray_message : forall (A : Type) (m : A -> A -> A) n init prog i s r q,
  runs n allreduce_prog prog -> csteps m n i (cinit prog init) s -> r < n -> c_pc s r = [] ->
  c_net s r q = [].
Proof. intros. eapply allreduce_clean; eauto. Qed.

(** PCU_Add_* (exact arithmetic): cell c on every rank is the sum over all ranks of cell c. *)
Theorem C29_add : forall n len init prog i s r c,
  0 < n -> (forall q, q < n -> length (init q) = len) -> runs n allreduce_prog prog ->
  csteps pcu_add n i (cinit prog init) s -> r < n -> c_pc s r = [] -> c < len ->
  length (c_val s r) = len /\
  nth c (c_val s r) 0%Z = zsum (map (fun q => nth c (init q) 0%Z) (seq 0 n)).
Proof. intros. eapply add_all; eauto. Qed.

(** PCU_Min_*: the result is one of the contributions and not above any. *)
Theorem C29_min : forall n len init prog i s r c,
  0 < n -> (forall q, q < n -> length (init q) = len) -> runs n allreduce_prog prog ->
  csteps pcu_min n i (cinit prog init) s -> r < n -> c_pc s r = [] -> c < len ->
  (exists q, q < n /\ nth c (c_val s r) 0%Z = nth c (init q) 0%Z) /\
  (forall q, q < n -> (nth c (c_val s r) 0 <= nth c (init q) 0)%Z).
Proof.
  intros n len init prog i s r c Hn Hl Hp Hs Hr Hf Hc.
  destruct (min_all n len init prog Hn Hl i s r c Hp Hs Hr Hf Hc) as [H1 H2]. split.
  - apply in_map_iff in H1 as (q & E & Hq). apply in_seq in Hq. exists q. split; [lia|congruence].
  - intros q Hq. apply H2. apply in_map_iff. exists q. split; auto. apply in_seq. lia.
Qed.

(** PCU_Max_*: the result is one of the contributions and not below any. *)
Theorem C29_max : forall n len init prog i s r c,
  0 < n -> (forall q, q < n -> length (init q) = len) -> runs n allreduce_prog prog ->
  csteps pcu_max n i (cinit prog init) s -> r < n -> c_pc s r = [] -> c < len ->
  (exists q, q < n /\ nth c (c_val s r) 0%Z = nth c (init q) 0%Z) /\
  (forall q, q < n -> (nth c (init q) 0 <= nth c (c_val s r) 0)%Z).
Proof.
  intros n len init prog i s r c Hn Hl Hp Hs Hr Hf Hc.
  destruct (max_all n len init prog Hn Hl i s r c Hp Hs Hr Hf Hc) as [H1 H2]. split.
  - apply in_map_iff in H1 as (q & E & Hq). apply in_seq in Hq. exists q. split; [lia|congruence].
  - intros q Hq. apply H2. apply in_map_iff. exists q. split; auto. apply in_seq. lia.
Qed.

(** The scan (sum): rank r obtains the sum over ranks 0..r. *)
Theorem C30_scan : forall n len init prog i s r c,
  0 < n -> (forall q, q < n -> length (init q) = len) -> runs n scan_prog prog ->
  csteps pcu_add n i (cinit prog init) s -> r < n -> c_pc s r = [] -> c < len ->
  nth c (c_val s r) 0%Z = zsum (map (fun q => nth c (init q) 0%Z) (seq 0 (r + 1))).
Proof. intros. eapply scan_all; eauto. Qed.

(** PCU_Exscan_*: after subtracting its own contribution rank r has the sum over 0..r-1. *)
Theorem C30_exscan : forall n len init prog i s r c,
  0 < n -> (forall q, q < n -> length (init q) = len) -> runs n scan_prog prog ->
  csteps pcu_add n i (cinit prog init) s -> r < n -> c_pc s r = [] -> c < len ->
  nth c (exscan_post (c_val s r) (init r)) 0%Z = zsum (map (fun q => nth c (init q) 0%Z) (seq 0 r)).
Proof. intros. eapply exscan_all; eauto. Qed.

Theorem C30_terminates : forall (A : Type) (m : A -> A -> A) n init prog i s,
  runs n scan_prog prog -> csteps m n i (cinit prog init) s ->
  (i <= 2 * nsum (map (fun r => length (prog r)) (seq 0 n))) /\
  (~ finished n s -> exists s', cstep m n s s').
Proof. intros; split; [eapply coll_bound; eauto | intros; eapply scan_progress; eauto]. Qed.

(** Barrier: when any rank has returned, every other rank has entered (issued its first send or
    got past its first step). *)
Theorem C55_barrier : forall (A : Type) (m : A -> A -> A) n init prog i s r q,
  0 < n -> runs n allreduce_prog prog -> csteps m n i (cinit prog init) s ->
  r < n -> q < n -> q <> r -> c_pc s r = [] ->
  c_sent s q = true \/ c_pc s q <> prog q.
Proof. intros A m n init prog i s r q Hn Hp Hs Hr Hq Hne Hf. exact (barrier m n init prog Hn i s r q Hp Hs Hr Hq Hne Hf). Qed.

(* ---------------- the hypotheses are met ---------------- *)
(** A scheduler that always moves the first rank able to move; it only makes [cstep] moves. *)
Definition try_move {A} (m : A -> A -> A) (s : @cstate A) (r : nat) : option (@cstate A) :=
  match c_pc s r with
  | [] => None
  | Idle :: rest => Some {| c_pc := fset (c_pc s) r rest; c_sent := c_sent s; c_val := c_val s; c_net := c_net s |}
  | Send q :: rest =>
      if c_sent s r then
        match c_net s r q with
        | [] => Some {| c_pc := fset (c_pc s) r rest; c_sent := fset (c_sent s) r false; c_val := c_val s; c_net := c_net s |}
        | _ => None
        end
      else Some {| c_pc := c_pc s; c_sent := fset (c_sent s) r true; c_val := c_val s;
                   c_net := fset2 (c_net s) r q (c_net s r q ++ [c_val s r]) |}
  | Recv q k :: rest =>
      match c_net s q r with
      | [] => None
      | x :: l => Some {| c_pc := fset (c_pc s) r rest; c_sent := c_sent s;
                          c_val := fset (c_val s) r (do_merge m k (c_val s r) x);
                          c_net := fset2 (c_net s) q r l |}
      end
  end.
Lemma try_move_step A (m : A -> A -> A) n s r s' : r < n -> try_move m s r = Some s' -> cstep m n s s'.
Proof.
  intros Hr. unfold try_move. destruct (c_pc s r) as [|[|q|q k] rest] eqn:E; try discriminate.
  - intros H; inversion H. now apply st_idle.
  - destruct (c_sent s r) eqn:Es.
    + destruct (c_net s r q) eqn:En; try discriminate. intros H; inversion H. eapply st_complete; eauto.
    + intros H; inversion H. eapply st_issue; eauto.
  - destruct (c_net s q r) eqn:En; try discriminate. intros H; inversion H. eapply st_recv; eauto.
Qed.
Fixpoint first_move {A} (m : A -> A -> A) (s : @cstate A) (l : list nat) : option (@cstate A) :=
  match l with
  | [] => None
  | r :: t => match try_move m s r with Some s' => Some s' | None => first_move m s t end
  end.
Fixpoint run {A} (m : A -> A -> A) (n fuel : nat) (s : @cstate A) : nat * @cstate A :=
  match fuel with
  | 0 => (0, s)
  | S f => match first_move m s (seq 0 n) with
           | Some s' => let (i, t) := run m n f s' in (S i, t)
           | None => (0, s)
           end
  end.
Lemma first_move_step A (m : A -> A -> A) n s s' : forall l, (forall r, In r l -> r < n) ->
  first_move m s l = Some s' -> cstep m n s s'.
Proof.
  induction l as [|r l IH]; simpl; intros Hl H; [discriminate|].
  destruct (try_move m s r) eqn:E; [inversion H; subst; eapply try_move_step; eauto|].
  apply IH; auto.
Qed.
Lemma csteps_front A (m : A -> A -> A) n i s1 s2 s3 : cstep m n s1 s2 -> csteps m n i s2 s3 -> csteps m n (S i) s1 s3.
Proof. intros H1 H2. induction H2; [eapply cs_step; [apply cs_refl|auto]|eapply cs_step; [apply IHcsteps; auto|auto]]. Qed.
Lemma run_steps A (m : A -> A -> A) n : forall fuel s i t, run m n fuel s = (i, t) -> csteps m n i s t.
Proof.
  induction fuel as [|f IH]; simpl; intros s i t H; [inversion H; apply cs_refl|].
  destruct (first_move m s (seq 0 n)) eqn:E; [|inversion H; apply cs_refl].
  destruct (run m n f c) eqn:Er. inversion H; subst. eapply csteps_front; [|apply IH; eauto].
  eapply first_move_step; eauto. intros r Hr. apply in_seq in Hr. lia.
Qed.

Definition get_prog (code : nat -> nat -> option (list cact)) (n r : nat) : list cact :=
  match code n r with Some l => l | None => [] end.
Lemma runs_all n : runs n allreduce_prog (get_prog allreduce_prog n).
Proof. intros r Hr. unfold get_prog. destruct (allreduce_prog_levels n r Hr) as (l & E & _). now rewrite E. Qed.
Lemma runs_scan n : runs n scan_prog (get_prog scan_prog n).
Proof. intros r Hr. unfold get_prog. destruct (scan_prog_levels n r Hr) as (l & E & _). now rewrite E. Qed.

(** six ranks really do reach a state in which all have returned, with the sums *)
Definition ex_init (r : nat) : list Z := [Z.of_nat r + 1; 10 * Z.of_nat r]%Z.
Example ex_allreduce_run : exists i s, csteps pcu_add 6 i (cinit (get_prog allreduce_prog 6) ex_init) s /\
  map (c_pc s) (seq 0 6) = repeat [] 6 /\ map (c_val s) (seq 0 6) = repeat [21%Z; 150%Z] 6.
Proof.
  destruct (run pcu_add 6 200 (cinit (get_prog allreduce_prog 6) ex_init)) as [i s] eqn:E.
  exists i, s. split; [eapply run_steps; eauto|].
  assert (H : let (i, s) := run pcu_add 6 200 (cinit (get_prog allreduce_prog 6) ex_init) in
    map (c_pc s) (seq 0 6) = repeat [] 6 /\ map (c_val s) (seq 0 6) = repeat [21%Z; 150%Z] 6)
    by (vm_compute; auto).
  rewrite E in H. exact H.
Qed.
Example ex_scan_run : exists i s, csteps pcu_add 6 i (cinit (get_prog scan_prog 6) ex_init) s /\
  map (c_pc s) (seq 0 6) = repeat [] 6 /\
  map (fun r => exscan_post (c_val s r) (ex_init r)) (seq 0 6) =
    [[0; 0]; [1; 0]; [3; 10]; [6; 30]; [10; 60]; [15; 100]]%Z.
Proof.
  destruct (run pcu_add 6 200 (cinit (get_prog scan_prog 6) ex_init)) as [i s] eqn:E.
  exists i, s. split; [eapply run_steps; eauto|].
  assert (H : let (i, s) := run pcu_add 6 200 (cinit (get_prog scan_prog 6) ex_init) in
    map (c_pc s) (seq 0 6) = repeat [] 6 /\
    map (fun r => exscan_post (c_val s r) (ex_init r)) (seq 0 6) =
    [[0; 0]; [1; 0]; [3; 10]; [6; 30]; [10; 60]; [15; 100]]%Z)
    by (vm_compute; auto).
  rewrite E in H. exact H.
Qed.

Print Assumptions C29_calls_defined.
Print Assumptions C29_allreduce.
Print Assumptions C29_ranks_agree.
Print Assumptions C29_terminates.
Print Assumptions C29_no_stray_message.
Print Assumptions C29_add.
Print Assumptions C29_min.
Print Assumptions C29_max.
Print Assumptions C30_scan.
Print Assumptions C30_exscan.
Print Assumptions C30_terminates.
Print Assumptions C55_barrier.
