(** C46: the stagnation detector. *)
From Verif Require Import Base SdModel.
From Coq Require Import Lqa.
Local Open Scope Q_scope.

(** recording a history of values, oldest first, in a new detector *)
Definition recorded (h : list Q) : option sd := foldM sd_push h sd_new.

(** the three states of a full ring holding the last values a, b, c (oldest first) *)
Definition holds3 (s : sd) (a b c : Q) : Prop :=
  s = mkSd 3 3 0 (ainit [a; b; c]) \/ s = mkSd 3 3 1 (ainit [c; a; b]) \/ s = mkSd 3 3 2 (ainit [b; c; a]).

Lemma push3 s a b c d : holds3 s a b c -> exists s', sd_push s d = Some s' /\ holds3 s' b c d.
Proof.
  intros [ -> | [ -> | -> ] ]; cbn; (eexists; split; [reflexivity|]); unfold holds3; auto.
Qed.

Lemma recorded3 h a b c : exists s, recorded (h ++ [a; b; c]) = Some s /\ holds3 s a b c.
Proof.
  revert a b c. induction h as [|x h IH] using rev_ind; intros a b c.
  - cbn. eexists; split; [reflexivity|]. left; reflexivity.
  - destruct (IH x a b) as [s [E H]]. destruct (push3 _ _ _ _ c H) as [s' [E' H']].
    exists s'; split; [|exact H']. unfold recorded in *.
    replace ((h ++ [x]) ++ [a; b; c]) with ((h ++ [x; a; b]) ++ [c]) by (rewrite <- !app_assoc; reflexivity).
    rewrite foldM_app, E. cbn [foldM obind]. rewrite E'. reflexivity.
Qed.

Lemma slope3 s a b c : holds3 s a b c ->
  exists r t, sd_slope s = Some r /\ r == -(3#2) * a + 2 * c - (1#2) * b /\ sd_average s = Some t /\ t == (a + b + c) / 3.
Proof.
  intros [ -> | [ -> | -> ] ]; (do 2 eexists; split; [reflexivity|]; split; [|split; [reflexivity|]]); cbn -[Qmult Qplus Qdiv]; unfold Qdiv; cbn [Qinv inject_Z Qnum Qden]; try field; ring.
Qed.

Lemma split3 (h : list Q) : (3 <= length h)%nat -> exists h' a b c, h = h' ++ [a; b; c].
Proof.
  intros H. rewrite <- (rev_involutive h) in *. rewrite rev_length in H.
  destruct (rev h) as [|c [|b [|a r]]]; cbn in H; try lia.
  exists (rev r), a, b, c. cbn. rewrite <- !app_assoc. reflexivity.
Qed.

(** Whatever was recorded, recording never goes out of range, and the slope (and average) can be asked for exactly when at
    least three values were recorded. *)
Theorem C46_available : forall h, exists s, recorded h = Some s /\
  (sd_full s = true <-> (3 <= length h)%nat) /\ ((exists x, sd_slope s = Some x) <-> (3 <= length h)%nat).
Proof.
  intros h. destruct (Nat.le_gt_cases 3 (length h)) as [L|L].
  - destruct (split3 h L) as [h' [a [b [c ->]]]]. destruct (recorded3 h' a b c) as [s [E H]].
    exists s; split; [exact E|]. destruct (slope3 _ _ _ _ H) as [r [t [E1 _]]].
    split; (split; intros _; [exact L|]). { destruct H as [ -> | [ -> | -> ] ]; reflexivity. } eauto.
  - destruct h as [|a [|b [|c h]]]; cbn in L; try lia; (eexists; split; [reflexivity|]); cbn; (split; split; [discriminate| lia | intros [? ?]; discriminate | lia]).
Qed.
Print Assumptions C46_available.

(** The slope depends on nothing but the last three values a, b, c (oldest to newest), and so does the average. *)
Theorem C46_last_three : forall h a b c, exists s r t, recorded (h ++ [a; b; c]) = Some s /\
  sd_slope s = Some r /\ r == -(3#2) * a - (1#2) * b + 2 * c /\
  sd_average s = Some t /\ t == (a + b + c) / 3.
Proof.
  intros h a b c. destruct (recorded3 h a b c) as [s [E H]]. destruct (slope3 _ _ _ _ H) as [r [t [E1 [E2 [E3 E4]]]]].
  exists s, r, t. repeat split; auto. rewrite E2; ring.
Qed.
Print Assumptions C46_last_three.

(** A monitored value that did not change over the last three records has slope zero; one that never decreased (increased)
    has a non-negative (non-positive) slope, which is zero only for a constant. *)
Theorem C46_trend : forall h a b c s r, recorded (h ++ [a; b; c]) = Some s -> sd_slope s = Some r ->
  (a == b -> b == c -> r == 0) /\ (a <= b -> b <= c -> 0 <= r) /\ (b <= a -> c <= b -> r <= 0) /\
  ((a <= b /\ b <= c) \/ (b <= a /\ c <= b) -> r == 0 -> a == b /\ b == c).
Proof.
  intros h a b c s r E S. destruct (C46_last_three h a b c) as [s' [r' [t [E' [S' [V _]]]]]].
  rewrite E in E'; inversion E'; subst s'. rewrite S in S'; inversion S'; subst r'. clear E E' S S'.
  repeat split; intros; lra.
Qed.
Print Assumptions C46_trend.

(** The weights are those of a one-sided three-point difference (-3/2, 2, -1/2), but they are applied in the order oldest,
    newest, middle: the slope of a straight line is not its step. *)
Theorem C46_derivative_refuted : exists h s r, recorded h = Some s /\ h = [0; 1; 2] /\ sd_slope s = Some r /\ ~ r == 1.
Proof.
  exists [0; 1; 2]. do 2 eexists. split; [reflexivity|]. split; [reflexivity|]. split; [reflexivity|].
  vm_compute. discriminate.
Qed.
Print Assumptions C46_derivative_refuted.

(** a concrete history in which the ring has wrapped around *)
Example C46_example : exists s r, recorded [(5#1); (4#1); (1#2); 3; (7#3)] = Some s /\ sd_slope s = Some r /\ r == (29#12).
Proof. do 2 eexists. split; [reflexivity|]. split; [reflexivity|]. vm_compute. reflexivity. Qed.
