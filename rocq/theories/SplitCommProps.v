(** C72: split, migrate and the construction calls never block: on every communicator all members perform the same collective operations in the same order. *)
From Verif Require Import Base.
From Verif Require Import SplitCommModel.

(** ** what "never blocks" means.  From any state that can be reached, whatever the order in which the operations are performed:
    either every process has finished or another operation can be performed; two processes never meet on a communicator in different
    operations; and there is a bound on the number of operations. *)
Definition matched (w : world) (s : progs) : Prop :=
  forall r r' c o o' t t', In r (members w c) -> In r' (members w c) -> s r = (c, o) :: t -> s r' = (c, o') :: t' -> o = o'.
Definition total (w : world) (s : progs) : nat := nsum (map (fun r => length (s r)) (seq 0 (length w))).
Definition never_blocks (w : world) (s : progs) : Prop :=
  forall k s', coll_steps w k s s' ->
    k <= total w s /\ matched w s' /\ (finished w s' \/ exists s'', coll_step w s' s'').

Lemma mem_lt w c r : In r (members w c) -> r < length w.
Proof.
  destruct c as [|k|q]; cbn [members]; intros H.
  - apply in_seq in H. lia.
  - apply filter_In in H as (H & _). apply in_seq in H. lia.
  - destruct (Nat.ltb_spec q (length w)); [destruct H as [<-|[]]; auto|destruct H].
Qed.

Section Rounds.
Variable w : world.
Notation n := (length w).
(** a round: which event each process performs, all members of a communicator together *)
Definition round := nat -> option event.
Definition rok (f : round) : Prop := forall r c o, r < n -> f r = Some (c, o) -> In r (members w c) /\ forall r', In r' (members w c) -> f r' = Some (c, o).
Definition prog (G : list round) (r : nat) : list event := flat_map (fun f => match f r with Some e => [e] | None => [] end) G.
Definition rep (G : list round) (s : progs) : Prop := Forall rok G /\ forall r, r < n -> s r = prog G r.

Lemma some_dec (f : round) (l : list nat) : (exists r, In r l /\ f r <> None) \/ (forall r, In r l -> f r = None).
Proof.
  induction l as [|a l IH]; [right; intros r []|]. destruct (f a) eqn:E; [left; exists a; split; [now left|congruence]|].
  destruct IH as [(r & Hr & N)|H]; [left; exists r; split; auto; now right|]. right. intros r [<-|Hr]; auto.
Qed.
Lemma rep_progress G : forall s, rep G s -> finished w s \/ exists s', coll_step w s s'.
Proof.
  induction G as [|f G IH]; intros s (HF & HS); [left; exact HS|]. inversion HF as [|? ? Hf HF']; subst.
  destruct (some_dec f (seq 0 n)) as [(r & Hr & N)|Hn].
  - right. apply in_seq in Hr. destruct (f r) as [[c o]|] eqn:E; [|congruence]. destruct (Hf r c o ltac:(lia) E) as (Hm & Hall).
    exists (fun q => if in_dec Nat.eq_dec q (members w c) then tl (s q) else s q). exists c, o. split; [intros X; rewrite X in Hm; destruct Hm|]. split.
    + intros q Hq. exists (tl (s q)). destruct (in_dec Nat.eq_dec q (members w c)); [|tauto]. split; auto. rewrite (HS q) by (eapply mem_lt; eauto). cbn [prog flat_map]. rewrite (Hall q Hq). reflexivity.
    + intros q Hq. destruct (in_dec Nat.eq_dec q (members w c)); tauto.
  - apply IH. split; auto. intros r Hr. rewrite HS by auto. cbn [prog flat_map]. rewrite (Hn r) by (apply in_seq; lia). reflexivity.
Qed.
Lemma rep_step G : forall s s', rep G s -> coll_step w s s' -> exists G', rep G' s'.
Proof.
  induction G as [|f G IH]; intros s s' (HF & HS) (c & o & Hne & Hm & Ho).
  - exfalso. destruct (members w c) as [|r l] eqn:E; [congruence|]. destruct (Hm r) as (t & X & _); [now left|]. rewrite HS in X by (apply (mem_lt w c); rewrite E; now left). discriminate.
  - inversion HF as [|? ? Hf HF']; subst. destruct (some_dec f (members w c)) as [(r & Hr & N)|Hn].
    + assert (Hfr : f r = Some (c, o)).
      { destruct (f r) as [e|] eqn:E; [|congruence]. destruct (Hm r Hr) as (t & X & _). rewrite HS in X by (eapply mem_lt; eauto). cbn [prog flat_map] in X. rewrite E in X. cbn in X. now inversion X. }
      destruct (Hf r c o (mem_lt w c r Hr) Hfr) as (_ & Hall).
      exists ((fun q => if in_dec Nat.eq_dec q (members w c) then None else f q) :: G). split.
      * constructor; auto. intros q c' o' Hq E. destruct (in_dec Nat.eq_dec q (members w c)) as [|Nq]; [discriminate|]. destruct (Hf q c' o' Hq E) as (A & B). split; auto.
        intros q' Hq'. destruct (in_dec Nat.eq_dec q' (members w c)) as [Y|]; [|auto]. exfalso. specialize (B q' Hq'). rewrite (Hall q' Y) in B. inversion B; subst. auto.
      * intros q Hq. cbn [prog flat_map]. destruct (in_dec Nat.eq_dec q (members w c)) as [Y|Y].
        -- destruct (Hm q Y) as (t & X & X'). rewrite X'. rewrite HS in X by auto. cbn [prog flat_map] in X. rewrite (Hall q Y) in X. cbn in X. inversion X. reflexivity.
        -- rewrite Ho by auto. rewrite HS by auto. reflexivity.
    + set (s0 := fun q => if q <? n then prog G q else []). set (s0' := fun q => if in_dec Nat.eq_dec q (members w c) then s' q else s0 q).
      assert (E0 : forall q, q < n -> s0 q = prog G q) by (intros q Hq; unfold s0; destruct (Nat.ltb_spec q n); [reflexivity|lia]).
      destruct (IH s0 s0') as (G' & HF0 & HS0).
      * split; auto.
      * exists c, o. split; auto. split; [|intros q Hq; unfold s0'; destruct (in_dec Nat.eq_dec q (members w c)); tauto].
        intros q Hq. destruct (Hm q Hq) as (t & X & X'). exists t. unfold s0'. destruct (in_dec Nat.eq_dec q (members w c)); [|tauto]. split; auto.
        rewrite E0 by (eapply mem_lt; eauto). rewrite HS in X by (eapply mem_lt; eauto). cbn [prog flat_map] in X. rewrite (Hn q Hq) in X. exact X.
      * exists (f :: G'). split; [constructor; auto|]. intros q Hq. cbn [prog flat_map]. specialize (HS0 q Hq). unfold s0' in HS0. destruct (in_dec Nat.eq_dec q (members w c)) as [Y|Y].
        -- rewrite (Hn q Y). exact HS0.
        -- rewrite Ho, HS by auto. cbn [prog flat_map]. rewrite (E0 q Hq) in HS0. unfold prog in HS0. now rewrite HS0.
Qed.
Lemma rep_matched G : forall s, rep G s -> matched w s.
Proof.
  induction G as [|f G IH]; intros s (HF & HS) r r' c o o' t t' Hr Hr' X X'; pose proof (mem_lt _ _ _ Hr) as Lr; pose proof (mem_lt _ _ _ Hr') as Lr'; rewrite HS in X, X' by auto.
  - discriminate.
  - inversion HF as [|? ? Hf HF']; subst. cbn [prog flat_map] in X, X'. destruct (f r) as [e|] eqn:E.
    + cbn in X. inversion X; subst e. destruct (Hf r c o Lr E) as (_ & A). rewrite (A r' Hr') in X'. cbn in X'. congruence.
    + destruct (f r') as [e|] eqn:E'.
      * cbn in X'. inversion X'; subst e. destruct (Hf r' c o' Lr' E') as (_ & A). rewrite (A r Hr) in E. discriminate.
      * apply (IH (prog G) (conj HF' (fun q _ => eq_refl)) r r' c o o' t t'); auto.
Qed.
Lemma total_step s s' : coll_step w s s' -> total w s' < total w s.
Proof.
  intros (c & o & Hne & Hm & Ho). unfold total. assert (H : forall l, (exists r, In r l /\ In r (members w c)) -> nsum (map (fun r => length (s' r)) l) < nsum (map (fun r => length (s r)) l)).
  { assert (L : forall r, length (s' r) <= length (s r)).
    { intros r. destruct (in_dec Nat.eq_dec r (members w c)) as [Y|Y]; [destruct (Hm r Y) as (t & -> & ->); cbn; lia|rewrite Ho by auto; lia]. }
    assert (L2 : forall l, nsum (map (fun r => length (s' r)) l) <= nsum (map (fun r => length (s r)) l)) by (induction l as [|a l IH]; cbn; [lia|specialize (L a); unfold nsum in *; lia]).
    induction l as [|a l IH]; intros (r & Hr & Hrm); [destruct Hr|]. cbn [map]. unfold nsum in *. cbn [fold_right]. destruct Hr as [->|Hr].
    - specialize (L2 l). destruct (Hm r Hrm) as (t & -> & ->). cbn [length]. lia.
    - specialize (L a). assert (E : exists r, In r l /\ In r (members w c)) by eauto. specialize (IH E). lia. }
  apply H. destruct (members w c) as [|r l] eqn:E; [congruence|]. exists r. split; [|now left]. apply in_seq. pose proof (mem_lt w c r). rewrite E in H0. specialize (H0 (or_introl eq_refl)). lia.
Qed.
Lemma total_ext s s' : (forall r, s r = s' r) -> total w s = total w s'.
Proof. intros H. unfold total. f_equal. apply map_ext. intros; now rewrite H. Qed.
Theorem rep_never_blocks G s : rep G s -> never_blocks w s.
Proof.
  intros HR k. revert G s HR. induction k as [|k IH]; intros G s HR s' H.
  - cbn in H. split; [lia|]. assert (HR' : rep G s') by (destruct HR as (A & B); split; auto; intros r Hr; rewrite <- H; auto). split; [eapply rep_matched; eauto|eapply rep_progress; eauto].
  - destruct H as (m & H1 & H2). destruct (rep_step G s m HR H1) as (G' & HR'). destruct (IH G' m HR' s' H2) as (A & B). split; [|exact B]. apply total_step in H1. lia.
Qed.

Lemma steps_total k : forall s s', coll_steps w k s s' -> k + total w s' <= total w s.
Proof.
  induction k as [|k IH]; intros s s' H; cbn in H; [rewrite (total_ext s s') by auto; lia|]. destruct H as (m & H1 & H2). apply total_step in H1. specialize (IH m s' H2). lia.
Qed.
(** so that the run that goes on as long as it can ends with all processes finished *)
Theorem C72_never_blocks_finishes s : never_blocks w s -> exists k s', coll_steps w k s s' /\ finished w s'.
Proof.
  remember (total w s) as m eqn:E. assert (L : total w s <= m) by lia. clear E. revert s L. induction m as [|m IH]; intros s L H; destruct (H 0 s (fun _ => eq_refl)) as (_ & _ & [F|(s1 & H1)]).
  - exists 0, s. split; [cbn; auto|exact F].
  - apply total_step in H1. lia.
  - exists 0, s. split; [cbn; auto|exact F].
  - pose proof (total_step _ _ H1). destruct (IH s1) as (k & s' & A & B); [lia| |].
    + intros k s' A. destruct (H (S k) s') as (_ & B); [exists s1; auto|]. split; [apply steps_total in A; lia|exact B].
    + exists (S k), s'. split; [exists s1; auto|exact B].
Qed.

(** ** building the rounds *)
(** every process is on the communicator [cf r], all members of which have the same one, and takes part or not together with them *)
Definition agree (cf : nat -> comm) (P : nat -> bool) : Prop :=
  forall r, r < n -> In r (members w (cf r)) /\ forall r', In r' (members w (cf r)) -> cf r' = cf r /\ P r' = P r.
Lemma seg_ok cf P (ops : comm -> list op) : agree cf P -> exists G, Forall rok G /\ forall r, r < n -> prog G r = if P r then on (cf r) (ops (cf r)) else [].
Proof.
  intros HA. assert (H : forall L ops, (forall r, r < n -> length (ops (cf r)) <= L) -> exists G, Forall rok G /\ forall r, r < n -> prog G r = if P r then on (cf r) (ops (cf r)) else []).
  { clear ops. induction L as [|L IH]; intros ops HL.
    - exists []. split; [constructor|]. intros r Hr. specialize (HL r Hr). destruct (ops (cf r)); [|cbn in HL; lia]. now destruct (P r).
    - destruct (IH (fun c => tl (ops c))) as (G & HG & HP). { intros r Hr. specialize (HL r Hr). destruct (ops (cf r)); cbn in *; lia. }
      exists ((fun r => if P r then match ops (cf r) with o :: _ => Some (cf r, o) | [] => None end else None) :: G). split.
      + constructor; auto. intros r c o Hr E. destruct (HA r Hr) as (A & B). destruct (P r) eqn:EP; [|discriminate]. destruct (ops (cf r)) as [|o0 l] eqn:EO; [discriminate|]. inversion E; subst. split; auto.
        intros r' Hr'. destruct (B r' Hr') as (-> & ->). now rewrite EO.
      + intros r Hr. cbn [prog flat_map]. change (flat_map _ G) with (prog G r). rewrite HP by auto. destruct (P r); [|reflexivity]. destruct (ops (cf r)) as [|o l]; reflexivity. }
  apply (H (fold_right Nat.max 0 (map (fun r => length (ops (cf r))) (seq 0 n)))). intros r Hr.
  assert (X : forall l, In r l -> length (ops (cf r)) <= fold_right Nat.max 0 (map (fun r => length (ops (cf r))) l)).
  { induction l as [|a l IH]; [intros []|]. intros [->|Hi]; cbn [map fold_right]; [lia|]. specialize (IH Hi). lia. }
  apply X, in_seq. lia.
Qed.
Definition ready (s : progs) : Prop := exists G, rep G s.
Lemma ready_ext s s' : (forall r, r < n -> s r = s' r) -> ready s -> ready s'.
Proof. intros H (G & A & B). exists G. split; auto. intros r Hr. rewrite <- H; auto. Qed.
Lemma ready_app s1 s2 : ready s1 -> ready s2 -> ready (fun r => s1 r ++ s2 r).
Proof.
  intros (G1 & A1 & B1) (G2 & A2 & B2). exists (G1 ++ G2). split; [now apply Forall_app|]. intros r Hr. rewrite B1, B2 by auto. unfold prog. now rewrite flat_map_app.
Qed.
Lemma ready_seg cf P ops : agree cf P -> ready (fun r => if P r then on (cf r) (ops (cf r)) else []).
Proof. intros H. destruct (seg_ok cf P ops H) as (G & A & B). exists G. split; auto. intros r Hr. now rewrite B. Qed.
Lemma ready_all cf ops : agree cf (fun _ => true) -> ready (fun r => on (cf r) (ops (cf r))).
Proof. intros H. apply (ready_seg cf (fun _ => true) ops H). Qed.
Lemma ready_nb s : ready s -> never_blocks w s.
Proof. intros (G & H). eapply rep_never_blocks; eauto. Qed.
End Rounds.
Print Assumptions C72_never_blocks_finishes.

(** ** the world of a split: isOriginal is the same for all processes with the same smallComm *)
Definition colour_ok (w : world) : Prop :=
  forall r r', r < length w -> r' < length w -> rk_color (rk w r) = rk_color (rk w r') -> rk_orig (rk w r) = rk_orig (rk w r').
Lemma agree_large w : agree w (fun _ => CLarge) (fun _ => true).
Proof. intros r Hr. cbn [members]. split; [apply in_seq; lia|auto]. Qed.
Definition small w r := CSub (rk_color (rk w r)).
Lemma agree_small w P : (forall r r', r < length w -> r' < length w -> rk_color (rk w r) = rk_color (rk w r') -> P r = P r') -> agree w (small w) P.
Proof.
  intros HP r Hr. unfold small. cbn [members]. split; [apply filter_In; split; [apply in_seq; lia|apply Nat.eqb_refl]|].
  intros r' H. apply filter_In in H as (H & E). apply in_seq in H. apply Nat.eqb_eq in E. split; [congruence|]. apply HP; auto; lia.
Qed.
Lemma agree_self w P : agree w CSelf P.
Proof. intros r Hr. cbn [members]. destruct (Nat.ltb_spec r (length w)); [|lia]. split; [now left|]. intros r' [<-|[]]. auto. Qed.

(** where PCU is before: every process on the large communicator, on its small one, or on MPI_COMM_SELF *)
Inductive start := AtLarge | AtSmall | AtSelf.
Definition at_comm (w : world) (a : start) (r : nat) : comm := match a with AtLarge => CLarge | AtSmall => small w r | AtSelf => CSelf r end.
Lemma agree_at w a : agree w (at_comm w a) (fun _ => true).
Proof. destruct a; [apply agree_large|apply agree_small; auto|apply agree_self]. Qed.

(** ** a collective operation is performed by all members of its communicator the same number of times, or the run never ends *)
Definition event_eq_dec (a b : event) : {a = b} + {a <> b}.
Proof. repeat decide equality. Defined.
Definition times (e : event) (l : list event) : nat := length (filter (fun e' => if event_eq_dec e e' then true else false) l).
Lemma times_app e l1 l2 : times e (l1 ++ l2) = times e l1 + times e l2.
Proof. unfold times. now rewrite filter_app, app_length. Qed.
Lemma times_cons e e' l : times e (e' :: l) = (if event_eq_dec e e' then 1 else 0) + times e l.
Proof. unfold times. cbn [filter]. destruct (event_eq_dec e e'); reflexivity. Qed.
Lemma times_steps w c o r r' : In r (members w c) -> In r' (members w c) -> forall k s s', coll_steps w k s s' ->
  times (c, o) (s r) + times (c, o) (s' r') = times (c, o) (s r') + times (c, o) (s' r).
Proof.
  intros Hr Hr'. induction k as [|k IH]; intros s s' H; cbn [coll_steps] in H; [rewrite !H; lia|]. destruct H as (m & (c1 & o1 & Hne & Hm & Ho) & H2). specialize (IH m s' H2).
  assert (D : forall q, In q (members w c) -> times (c, o) (s q) = (if event_eq_dec (c, o) (c1, o1) then 1 else 0) + times (c, o) (m q)).
  { intros q Hq. destruct (in_dec Nat.eq_dec q (members w c1)) as [Y|Y].
    - destruct (Hm q Y) as (t & -> & ->). apply times_cons.
    - rewrite (Ho q Y). destruct (event_eq_dec (c, o) (c1, o1)) as [E|]; [|reflexivity]. inversion E; subst. tauto. }
  rewrite (D r Hr), (D r' Hr'). lia.
Qed.
Theorem C72_counts : forall w s c o r r' k s', In r (members w c) -> In r' (members w c) -> times (c, o) (s r) <> times (c, o) (s r') -> coll_steps w k s s' -> ~ finished w s'.
Proof.
  intros w s c o r r' k s' Hr Hr' N H F. pose proof (times_steps w c o r r' Hr Hr' k s s' H) as E. rewrite (F r), (F r') in E by (eapply mem_lt; eauto). cbn in E. lia.
Qed.
Print Assumptions C72_counts.

(** ** migrate *)
Theorem C72_migrate : forall w a, never_blocks w (fun r => migrate_run w (at_comm w a r)).
Proof. intros w a. apply ready_nb. apply (ready_all w (at_comm w a) (migrate_ops w)). apply agree_at. Qed.
Print Assumptions C72_migrate.

(** ** construction: the application calls it on all processes of a communicator with the same kind of graph and the same number of edge types *)
Theorem C72_construct : forall w a,
  (forall r r', r < length w -> In r' (members w (at_comm w a r)) -> rk_hyper (rk w r') = rk_hyper (rk w r) /\ rk_types (rk w r') = rk_types (rk w r)) ->
  never_blocks w (fun r => construct_run w (at_comm w a r) r).
Proof.
  intros w a H. apply ready_nb.
  set (rep := fun c => match members w c with r :: _ => r | [] => 0 end).
  apply (ready_ext w (fun r => on (at_comm w a r) ((fun c => construct_verts ++ ghost_totals (rk_hyper (rk w (rep c))) (rk_types (rk w (rep c)))) (at_comm w a r)))).
  2:{ apply (ready_all w (at_comm w a) (fun c => construct_verts ++ ghost_totals (rk_hyper (rk w (rep c))) (rk_types (rk w (rep c))))). apply agree_at. }
  intros r Hr. unfold construct_run. assert (Hi : In (rep (at_comm w a r)) (members w (at_comm w a r))).
  { unfold rep. destruct (agree_at w a r Hr) as (A & _). destruct (members w (at_comm w a r)); [destruct A|now left]. }
  destruct (H r _ Hr Hi) as (-> & ->). reflexivity.
Qed.
Print Assumptions C72_construct.
Lemma times_totals c h t : times (c, OAddLong) (on c (ghost_totals h t)) = (if h then 2 else 1) * t.
Proof.
  induction t as [|t IH]; [destruct h; reflexivity|]. unfold ghost_totals in *. cbn [repeat concat]. unfold on in *. rewrite map_app, times_app, IH. destruct h; cbn [map]; rewrite ?times_cons.
  - destruct (event_eq_dec (c, OAddLong) (c, OAddLong)); [|congruence]. unfold times. cbn. lia.
  - destruct (event_eq_dec (c, OAddLong) (c, OAddLong)); [|congruence]. unfold times. cbn. lia.
Qed.
(** and this is needed: with a different number of sums the call never returns on all processes *)
Theorem C72_construct_needed : forall w a r r', r < length w -> In r' (members w (at_comm w a r)) ->
  (if rk_hyper (rk w r) then 2 else 1) * rk_types (rk w r) <> (if rk_hyper (rk w r') then 2 else 1) * rk_types (rk w r') ->
  forall k s', coll_steps w k (fun q => construct_run w (at_comm w a q) q) s' -> ~ finished w s'.
Proof.
  intros w a r r' Hr Hr' N k s' H. destruct (agree_at w a r Hr) as (A & B). destruct (B r' Hr') as (E & _).
  apply (C72_counts w (fun q => construct_run w (at_comm w a q) q) (at_comm w a r) OAddLong r r' k s' A Hr'); [|exact H]. unfold construct_run. rewrite E. unfold on. rewrite !map_app, !times_app. fold (on (at_comm w a r) (ghost_totals (rk_hyper (rk w r)) (rk_types (rk w r)))).
  fold (on (at_comm w a r) (ghost_totals (rk_hyper (rk w r')) (rk_types (rk w r')))). rewrite !times_totals. lia.
Qed.
Print Assumptions C72_construct_needed.

(** ** creation of the input and split *)
Inductive kind := LocalInput (others : bool) | GlobalInput.
Definition create (w : world) (k : kind) (r : nat) (cur : comm) : list event * split_input * comm :=
  match k with LocalInput o => createLocalSplitInput w o r cur | GlobalInput => createGlobalSplitInput w r cur end.
Definition input_of (w : world) (k : kind) (r : nat) : split_input := snd (fst (create w k r CLarge)).
(** a local split needs the input made for it, with an array of ranks *)
Definition fits (k : kind) (m : method) : Prop := m = LOCAL_PARMETIS -> k = LocalInput true.

Lemma on_app c l1 l2 : on c (l1 ++ l2) = on c l1 ++ on c l2.
Proof. apply map_app. Qed.
Definition oif (w : world) (r : nat) (l : list event) : list event := if rk_orig (rk w r) then l else [].
Lemma split_ready w k m a : colour_ok w -> fits k m -> (m = GLOBAL_PARMETIS -> a = AtSmall) ->
  exists s, (forall r, r < length w -> split_run w m (input_of w k r) r (at_comm w a r) = Some (s r, CLarge)) /\ ready w s.
Proof.
  intros HC HF HG.
  assert (AO : agree w (small w) (fun r => rk_orig (rk w r))) by (apply agree_small; exact HC).
  assert (AT : agree w (small w) (fun _ => true)) by (apply agree_small; auto).
  assert (RM : ready w (fun _ => migrate_run w CLarge)) by exact (ready_all w (fun _ => CLarge) (migrate_ops w) (agree_large w)).
  assert (RL : forall ops, ready w (fun _ => on CLarge ops)) by (intros ops; exact (ready_all w (fun _ => CLarge) (fun _ => ops) (agree_large w))).
  assert (RS : forall ops, ready w (fun r => on (small w r) ops)) by (intros ops; exact (ready_all w (small w) (fun _ => ops) AT)).
  assert (RO : forall ops, ready w (fun r => oif w r (on (small w r) ops))) by (intros ops; exact (ready_seg w (small w) _ (fun _ => ops) AO)).
  assert (RF : forall ops, ready w (fun r => oif w r (on (CSelf r) ops))) by (intros ops; exact (ready_seg w CSelf _ (fun _ => ops) (agree_self w _))).
  assert (RA : forall ops, ready w (fun r => on (at_comm w a r) ops)) by (intros ops; exact (ready_all w (at_comm w a) (fun _ => ops) (agree_at w a))).
  assert (IS : forall r, in_small (input_of w k r) = small w r) by (intros; destruct k; reflexivity).
  assert (IL : forall r, in_large (input_of w k r) = CLarge) by (intros; destruct k; reflexivity).
  assert (IO : forall r, in_orig (input_of w k r) = rk_orig (rk w r)) by (intros; destruct k; reflexivity).
  destruct m.
  - rewrite (HG eq_refl). clear RA HG.
    exists (fun r => oif w r (on (small w r) (parmetis_ops ++ expand_ops)) ++ on (small w r) [OFree; OFree] ++ on CLarge [ODup; ODup] ++ migrate_run w CLarge). split.
    + intros r Hr. unfold split_run. rewrite IO, IL. unfold oif. cbn [at_comm]. destruct (rk_orig (rk w r)); cbn [obind app]; unfold switch; rewrite ?on_app, <- ?app_assoc; reflexivity.
    + apply ready_app; [apply RO|]. apply ready_app; [apply RS|]. apply ready_app; [apply RL|exact RM].
  - pose proof (HF eq_refl) as Hk. assert (IG : forall r, in_factor (input_of w k r) && in_others (input_of w k r) = true) by (intros; rewrite Hk; reflexivity).
    exists (fun r => on (at_comm w a r) [OFree; OFree] ++ oif w r (on (CSelf r) ([ODup; ODup] ++ parmetis_ops ++ [OFree; OFree])) ++ oif w r (on (small w r) ([ODup; ODup] ++ expand_ops ++ [OFree; OFree])) ++ on CLarge [ODup; ODup] ++ migrate_run w CLarge). split.
    + intros r Hr. unfold split_run. rewrite IO, IL, IS, IG. unfold oif. destruct (rk_orig (rk w r)); cbn [obind app]; unfold switch; rewrite ?on_app, <- ?app_assoc; reflexivity.
    + apply ready_app; [apply RA|]. apply ready_app; [apply RF|]. apply ready_app; [apply RO|]. apply ready_app; [apply RL|exact RM].
  - exists (fun r => on (at_comm w a r) [OFree; OFree] ++ on CLarge ([ODup; ODup] ++ zoltan_ops ++ [OFree; OFree]) ++ on (small w r) [ODup; ODup] ++ oif w r (on (small w r) expand_ops) ++ on (small w r) [OFree; OFree] ++ on CLarge [ODup; ODup] ++ migrate_run w CLarge). split.
    + intros r Hr. unfold split_run. rewrite IO, IL, IS. unfold oif. destruct (rk_orig (rk w r)); cbn [obind app]; unfold switch; rewrite ?on_app, <- ?app_assoc; reflexivity.
    + apply ready_app; [apply RA|]. apply ready_app; [apply RL|]. apply ready_app; [apply RS|]. apply ready_app; [apply RO|]. apply ready_app; [apply RS|]. apply ready_app; [apply RL|exact RM].
Qed.

(** What a migration costs: three maxima; with T the largest number of edge types of a process, two phases, one more if some process has
    coordinates, one per edge type and two for the ghost weights if there is more than one process; one sum, and for each edge type one more
    (two if some process has a hypergraph). *)
Lemma maxi_spec (g : nat -> nat) (l : list nat) : let T := fold_right Nat.max 0 (map g l) in (forall r, In r l -> g r <= T) /\ (T = 0 \/ exists r, In r l /\ g r = T).
Proof.
  induction l as [|a l (IH1 & IH2)]; cbn [map fold_right]; [split; [intros r []|auto]|]. split.
  - intros r [->|Hr]; [lia|]. specialize (IH1 r Hr). lia.
  - destruct (Nat.max_spec (g a) (fold_right Nat.max 0 (map g l))) as [(A & ->)|(A & ->)].
    + destruct IH2 as [E|(r & Hr & E)]; [lia|]. right. exists r. split; [now right|exact E].
    + right. exists a. split; [now left|reflexivity].
Qed.
Lemma maxi_flag w c (b : rank_data -> bool) : (0 <? max_int w c (fun d => b2n (b d))) = existsb (fun r => b (rk w r)) (members w c).
Proof.
  unfold max_int. induction (members w c) as [|a l IH]; [reflexivity|]. cbn [map fold_right existsb]. rewrite <- IH. destruct (b (rk w a)); cbn [b2n orb]; [|reflexivity]. destruct (fold_right _ _ _); reflexivity.
Qed.
Lemma times_repeat c o o' k : times (c, o) (on c (repeat o' k)) = if event_eq_dec (c, o) (c, o') then k else 0.
Proof. induction k as [|k IH]; [now destruct (event_eq_dec (c, o) (c, o'))|]. cbn [repeat on map]. rewrite times_cons. change (map (pair c) (repeat o' k)) with (on c (repeat o' k)). rewrite IH. destruct (event_eq_dec (c, o) (c, o')); reflexivity. Qed.
Lemma times_totals_other c o h t : o <> OAddLong -> times (c, o) (on c (ghost_totals h t)) = 0.
Proof.
  intros N. induction t as [|t IH]; [destruct h; reflexivity|]. unfold ghost_totals in *. cbn [repeat concat]. unfold on in *. rewrite map_app, times_app, IH. destruct h; cbn [map]; rewrite ?times_cons; destruct (event_eq_dec (c, o) (c, OAddLong)) as [E|]; try (inversion E; congruence); reflexivity.
Qed.
Theorem C72_migrate_counts : forall w c, exists T,
  (forall r, In r (members w c) -> rk_types (rk w r) <= T) /\ (T = 0 \/ exists r, In r (members w c) /\ rk_types (rk w r) = T) /\
  let some b := existsb (fun r => b (rk w r)) (members w c) in
  times (c, OMaxInt) (migrate_run w c) = 3 /\
  times (c, OPhase) (migrate_run w c) = 2 + (if some rk_coords then 1 else 0) + T + (if 1 <? length (members w c) then 2 else 0) /\
  times (c, OAddLong) (migrate_run w c) = 1 + (if some rk_hyper then 2 else 1) * T.
Proof.
  intros w c. exists (max_int w c rk_types). destruct (maxi_spec (fun r => rk_types (rk w r)) (members w c)) as (A & B). split; [exact A|]. split; [exact B|]. clear A B. cbv zeta.
  unfold migrate_run, migrate_ops. rewrite !maxi_flag. unfold construct_ghosts_map, peers. cbv zeta. rewrite !on_app, !times_app, !times_repeat, times_totals, !times_totals_other by discriminate.
  assert (E : forall l, times (c, OMaxInt) (on c l) = length (filter (fun o => match o with OMaxInt => true | _ => false end) l)).
  { intros l. unfold times, on. induction l as [|o l IH]; [reflexivity|]. cbn [map filter]. destruct (event_eq_dec (c, OMaxInt) (c, o)) as [X|X]; [inversion X; cbn [length]; now rewrite IH|]. destruct o; try exact IH. congruence. }
  assert (E2 : forall l, times (c, OPhase) (on c l) = length (filter (fun o => match o with OPhase => true | _ => false end) l)).
  { intros l. unfold times, on. induction l as [|o l IH]; [reflexivity|]. cbn [map filter]. destruct (event_eq_dec (c, OPhase) (c, o)) as [X|X]; [inversion X; cbn [length]; now rewrite IH|]. destruct o; try exact IH. congruence. }
  assert (E3 : forall l, times (c, OAddLong) (on c l) = length (filter (fun o => match o with OAddLong => true | _ => false end) l)).
  { intros l. unfold times, on. induction l as [|o l IH]; [reflexivity|]. cbn [map filter]. destruct (event_eq_dec (c, OAddLong) (c, o)) as [X|X]; [inversion X; cbn [length]; now rewrite IH|]. destruct o; try exact IH. congruence. }
  rewrite !E, !E2, !E3.
  destruct (event_eq_dec (c, OMaxInt) (c, OPhase)) as [X|_]; [inversion X|]. destruct (event_eq_dec (c, OPhase) (c, OPhase)) as [_|X]; [|congruence]. destruct (event_eq_dec (c, OAddLong) (c, OPhase)) as [X|_]; [inversion X|].
  destruct (existsb _ _), (existsb _ _), (1 <? length (members w c)); cbn [filter length construct_verts ghost_tag]; repeat split; lia.
Qed.
Print Assumptions C72_migrate_counts.

(** Creating the input and splitting: from any communicator, with every method, for all numbers of processes, colours, original processes,
    and whatever graph each process holds.  Afterwards PCU is on the large communicator. *)
Definition create_and_split (w : world) (k : kind) (m : method) (r : nat) (cur : comm) : option (list event * comm) :=
  let '(e, inp, c) := create w k r cur in '(e', c') <- split_run w m inp r c ;; Some (e ++ e', c').
Theorem C72_split : forall w k m a, colour_ok w -> fits k m ->
  exists s, (forall r, r < length w -> create_and_split w k m r (at_comm w a r) = Some (s r, CLarge)) /\ never_blocks w s.
Proof.
  intros w k m a HC HF. destruct (split_ready w k m AtSmall HC HF (fun _ => eq_refl)) as (s & Hs & HR).
  exists (fun r => switch (at_comm w a r) (small w r) ++ s r). split.
  - intros r Hr. specialize (Hs r Hr). unfold create_and_split. destruct k; cbn [create createLocalSplitInput createGlobalSplitInput]; unfold input_of in Hs; cbn in Hs; unfold small in Hs; rewrite Hs; reflexivity.
  - apply ready_nb. apply ready_app; [|exact HR]. apply ready_app.
    + exact (ready_all w (at_comm w a) (fun _ => [OFree; OFree]) (agree_at w a)).
    + exact (ready_all w (small w) (fun _ => [ODup; ODup]) (agree_small w (fun _ => true) (fun _ _ _ _ _ => eq_refl))).
Qed.
Print Assumptions C72_split.

(** If the application moves PCU to another communicator in between, the local split and the Zoltan split still work... *)
Theorem C72_split_after_switch : forall w k m a, colour_ok w -> fits k m -> m <> GLOBAL_PARMETIS ->
  exists s, (forall r, r < length w -> split_run w m (input_of w k r) r (at_comm w a r) = Some (s r, CLarge)) /\ never_blocks w s.
Proof. intros w k m a HC HF HM. destruct (split_ready w k m a HC HF) as (s & Hs & HR); [tauto|]. exists s. split; auto. now apply ready_nb. Qed.
Print Assumptions C72_split_after_switch.

(** ... but the global ParMETIS split does not: with PCU on the large communicator and at least one process that is not original it never returns. *)
Theorem C72_global_after_switch_refuted : forall w k r r', r < length w -> r' < length w -> rk_orig (rk w r) = true -> rk_orig (rk w r') = false ->
  exists s, (forall q, q < length w -> split_run w GLOBAL_PARMETIS (input_of w k q) q CLarge = Some (s q, CLarge)) /\
    forall n s', coll_steps w n s s' -> ~ finished w s'.
Proof.
  intros w k r r' Hr Hr' O O'. assert (IL : forall r, in_large (input_of w k r) = CLarge) by (intros; destruct k; reflexivity).
  assert (IO : forall r, in_orig (input_of w k r) = rk_orig (rk w r)) by (intros; destruct k; reflexivity).
  exists (fun q => oif w q (on CLarge parmetis_ops ++ on CLarge expand_ops) ++ switch CLarge CLarge ++ migrate_run w CLarge). split.
  - intros q Hq. unfold split_run. rewrite IO, IL. unfold oif. destruct (rk_orig (rk w q)); cbn [obind app]; rewrite <- ?app_assoc; reflexivity.
  - intros n s' H. assert (L : forall q, q < length w -> In q (members w CLarge)) by (intros; cbn; apply in_seq; lia).
    revert H. set (s := fun q => _). intros H. apply (C72_counts w s CLarge OPartKway r r' n s' (L r Hr) (L r' Hr')); [|exact H]. unfold s, oif. rewrite O, O'. rewrite !times_app. cbn [app].
    assert (times (CLarge, OPartKway) (on CLarge parmetis_ops) = 1) by reflexivity. change (times (CLarge, OPartKway) []) with 0. lia.
Qed.
Print Assumptions C72_global_after_switch_refuted.

(** The local method with an input that has no factor or no ranks fails its assertion on the original processes. *)
Theorem C72_local_needs_ranks : forall w k r cur, rk_orig (rk w r) = true -> k <> LocalInput true -> split_run w LOCAL_PARMETIS (input_of w k r) r cur = None.
Proof. intros w k r cur O N. unfold split_run. destruct k as [[|]|]; [congruence| |]; cbn; rewrite O; reflexivity. Qed.
Print Assumptions C72_local_needs_ranks.

(** ** examples: three processes, the first two original, one of them without a graph yet *)
Definition ex_w : world := [mkRank 0 true true 2 true; mkRank 0 true false 0 false; mkRank 1 false false 0 false].
Example C72_ex_hyp : colour_ok ex_w /\ fits (LocalInput true) LOCAL_PARMETIS /\ length ex_w = 3.
Proof.
  split; [|split; [intros _; reflexivity|reflexivity]]. intros r r' H H' E. cbn in H, H'. destruct r as [|[|[|r]]]; [| | |lia]; (destruct r' as [|[|[|r']]]; [| | |lia]); cbn in *; congruence.
Qed.
Example C72_ex_run : split_run ex_w GLOBAL_PARMETIS (input_of ex_w GlobalInput 2) 2 (CSub 1) =
  Some (on (CSub 1) [OFree; OFree] ++ on CLarge ([ODup; ODup] ++ [OMaxInt; OMaxInt; OPhase; OPhase; OMaxInt; OPhase; OPhase; OPhase; OAddLong; OAddLong; OAddLong; OAddLong; OAddLong; OPhase; OPhase]), CLarge).
Proof. reflexivity. Qed.
(** a run of two processes that do not agree: blocked at once *)
Example C72_ex_construct : forall k s', coll_steps [mkRank 0 true false 1 false; mkRank 0 true false 2 false] k (fun r => construct_run [mkRank 0 true false 1 false; mkRank 0 true false 2 false] CLarge r) s' -> ~ finished [mkRank 0 true false 1 false; mkRank 0 true false 2 false] s'.
Proof. intros k s' H. apply (C72_construct_needed _ AtLarge 0 1) in H; auto; cbn; [lia|auto|lia]. Qed.
