(** Weight diffusion: totals and the loop. *)
From Verif Require Import Base GraphModel GraphSpec Comm TagModel TagProps MetricsModel MetricsProps SdModel MigrateModel MigrateSpec WeightMigModel WeightMigProps BalanceProps WBalModel WBalSpec WBalProofs3 WBalProofs4.
From Coq Require Import Lqa Qround.
Local Open Scope nat_scope.

Lemma carried_split ts (L : list Z) B : NoDup L -> sumf (fun a => carried ts (Z.eqb a) B) L = carried ts (is_in L) B.
Proof.
  intros N. unfold carried. rewrite sumf_swap. apply sumf_ext. intros [[x y] k] _. cbn [fst snd]. destruct (B y).
  - rewrite (sumf_ext _ _ (fun v => if Z.eqb x v then k else 0%Z)) by (intros v _; rewrite andb_true_r, Z.eqb_sym; reflexivity). rewrite sumf_onehot by auto. now rewrite andb_true_r.
  - rewrite andb_false_r. apply sumf_zero. intros v _. now rewrite andb_false_r.
Qed.
Lemma carried_split_to ts (L : list Z) A : NoDup L -> sumf (fun b => carried ts A (Z.eqb b)) L = carried ts A (is_in L).
Proof.
  intros N. unfold carried. rewrite sumf_swap. apply sumf_ext. intros [[x y] k] _. cbn [fst snd]. destruct (A x); cbn [andb].
  - rewrite (sumf_ext _ _ (fun v => if Z.eqb y v then k else 0%Z)) by (intros v _; rewrite Z.eqb_sym; reflexivity). now rewrite sumf_onehot by auto.
  - now apply sumf_zero.
Qed.
Lemma carried_ext ts A B A' B' : (forall a b x, In (a, b, x) ts -> A a && B b = A' a && B' b) -> carried ts A B = carried ts A' B'.
Proof. intros H. unfold carried. apply sumf_ext. intros [[a b] x] I. cbn [fst snd]. now rewrite (H a b x I). Qed.
Lemma is_in_parts (ps : list part_in) v : NoDup (flat_map in_verts ps) -> forall k, sumf (fun p => if is_in (in_verts p) v then k else 0%Z) ps = if is_in (flat_map in_verts ps) v then k else 0%Z.
Proof.
  intros N k. induction ps as [|p ps IH]; [reflexivity|]. cbn [flat_map] in *. apply NoDup_app_iff in N as (N1 & N2 & N3). change ((if is_in (in_verts p) v then k else 0%Z) + sumf (fun p => if is_in (in_verts p) v then k else 0%Z) ps = if is_in (in_verts p ++ flat_map in_verts ps) v then k else 0%Z)%Z. rewrite IH by auto.
  unfold is_in at 3. rewrite existsb_app. fold (is_in (in_verts p) v). fold (is_in (flat_map in_verts ps) v). destruct (is_in (in_verts p) v) eqn:E1; destruct (is_in (flat_map in_verts ps) v) eqn:E2; cbn [orb]; try lia. apply is_in_ok in E1, E2. exfalso. eapply N3; eauto.
Qed.
Lemma seq_nth_map (l : list Z) : map (fun i => nth i l 0%Z) (seq 0 (length l)) = l.
Proof. induction l as [|x l IH]; [reflexivity|]. cbn [length seq map nth]. f_equal. rewrite <- seq_shift, map_map. exact IH. Qed.

Section Totals.
Variables (val : Z -> Q) (D : positive) (fuel t : nat) (step : Q) (ps ps' : list part_in) (ts : list transfer).
Hypothesis DF : diffusible val fuel t ps.
Hypothesis SB : same_but_weights ps ps'.
Hypothesis DD : diffused D step ps ps' ts.
Lemma total_given p : length (in_vws p) <= length (in_verts p) -> part_total p = sumf (given p) (seq 0 (length (in_verts p))).
Proof.
  intros L. unfold part_total, sumf. f_equal. unfold given. rewrite <- (seq_nth_map (vertex_weights (in_verts p) (in_vws p))) at 1. f_equal. f_equal. unfold vertex_weights. rewrite app_length, repeat_length. lia.
Qed.
Lemma last_once (L : nat) k : sumf (fun l => if Nat.eqb (S l) L then k else 0%Z) (seq 0 L) = if Nat.eqb L 0 then 0%Z else k.
Proof.
  destruct L as [|m]; [reflexivity|]. rewrite seq_S. cbn [Nat.add]. rewrite sumf_snoc, Nat.eqb_refl. rewrite sumf_zero; [cbn; lia|]. intros x Hx. apply in_seq in Hx. destruct (Nat.eqb_spec (S x) (S m)); [lia|auto].
Qed.
Lemma part_change r p p' : nth_error ps r = Some p -> nth_error ps' r = Some p' -> part_total p' = (part_total p - carried ts (is_in (in_verts p)) any + carried ts any (is_in (in_verts p)))%Z.
Proof.
  intros Hp Hp'. destruct (same_nth ps ps' r p' SB Hp') as (p1 & Hp1 & V & _ & _ & LW). assert (p1 = p) by congruence. subst p1. pose proof (df_valid _ _ _ _ DF p (nth_error_In _ _ Hp)) as (ND & LV & _).
  rewrite !total_given by (rewrite ?V; lia). rewrite V. destruct DD as (_ & _ & _ & HN).
  rewrite (sumf_ext _ (given p') (fun l => given p l - carried ts (Z.eqb (nth l (in_verts p) 0%Z)) any + if Nat.eqb (S l) (length (in_verts p)) then carried ts any (is_in (in_verts p)) else 0)%Z).
  2:{ intros l Hl. apply in_seq in Hl. apply (HN r p p' l); auto. apply nth_error_nth'. lia. }
  rewrite sumf_add, sumf_sub, last_once. rewrite <- (carried_split ts (in_verts p) any ND). replace (sumf (fun a => carried ts (Z.eqb a) any) (in_verts p)) with (sumf (fun l => carried ts (Z.eqb (nth l (in_verts p) 0%Z)) any) (seq 0 (length (in_verts p)))) by (rewrite <- (sumf_map _ _ (fun a => carried ts (Z.eqb a) any) (fun l => nth l (in_verts p) 0%Z)), seq_nth_map; reflexivity). f_equal. destruct (Nat.eqb_spec (length (in_verts p)) 0) as [E|]; [|reflexivity].
  destruct (in_verts p); [|discriminate]. unfold carried. symmetry. apply sumf_zero. intros [[a b] x] _. cbn. reflexivity.
Qed.
Lemma ends_in a b x : In (a, b, x) ts -> is_in (flat_map in_verts ps) a = true /\ is_in (flat_map in_verts ps) b = true.
Proof.
  intros H. destruct DD as (A & _). destruct (A a b x H) as (_ & _ & p & q & Ip & Iq & Ha & Hb & _). split; apply is_in_ok, in_flat_map; eauto.
Qed.
Lemma all_kept : all_total ps' = all_total ps.
Proof.
  unfold all_total. pose proof (df_once _ _ _ _ DF) as HN.
  rewrite (sumf_nth _ _ part_total (fun p => (part_total p - carried ts (is_in (in_verts p)) any + carried ts any (is_in (in_verts p)))%Z) ps' ps).
  - rewrite sumf_add, sumf_sub. enough (sumf (fun p => carried ts (is_in (in_verts p)) any) ps = sumf (fun p => carried ts any (is_in (in_verts p))) ps) by lia. unfold carried. rewrite (sumf_swap _ _ _ ps ts). rewrite (sumf_swap _ _ _ ps ts). apply sumf_ext. intros [[a b] x] I. unfold any. cbn [fst snd andb].
    rewrite (sumf_ext _ (fun p => if is_in (in_verts p) a && true then x else 0%Z) (fun p => if is_in (in_verts p) a then x else 0%Z)) by (intros; now rewrite andb_true_r).
    rewrite !(is_in_parts ps) by auto. destruct (ends_in a b x I) as (-> & ->). reflexivity.
  - apply SB.
  - intros i p' p Hp' Hp. now apply (part_change i).
Qed.
(** what a part sends, by the vertices it goes to *)
Lemma sent_by_pairs p : In p ps -> carried ts (is_in (in_verts p)) any = sumf (fun a => sumf (fun b => carried ts (Z.eqb a) (Z.eqb b)) (flat_map in_verts ps)) (in_verts p).
Proof.
  intros Ip. pose proof (df_valid _ _ _ _ DF p Ip) as (ND & _). rewrite (sumf_ext _ _ (fun a => carried ts (Z.eqb a) any)); [now rewrite carried_split|].
  intros a _. rewrite carried_split_to by apply (df_once _ _ _ _ DF). apply carried_ext. intros x y k I. destruct (ends_in x y k I) as (_ & ->). reflexivity.
Qed.
Lemma received_by_pairs p : In p ps -> carried ts any (is_in (in_verts p)) = sumf (fun a => sumf (fun b => carried ts (Z.eqb b) (Z.eqb a)) (flat_map in_verts ps)) (in_verts p).
Proof.
  intros Ip. pose proof (df_valid _ _ _ _ DF p Ip) as (ND & _). rewrite (sumf_ext _ _ (fun a => carried ts any (Z.eqb a))); [now rewrite carried_split_to|].
  intros a _. rewrite carried_split by apply (df_once _ _ _ _ DF). apply carried_ext. intros x y k I. destruct (ends_in x y k I) as (-> & _). reflexivity.
Qed.
Lemma carried_apart a b : carried ts (Z.eqb a) (Z.eqb b) <> 0%Z -> exists p q, In p ps /\ In q ps /\ In a (in_verts p) /\ In b (in_verts q) /\ ~ In b (in_verts p).
Proof.
  intros H. assert (EX : exists x, In (a, b, x) ts).
  { clear - H. unfold carried, sumf, zsum in H. induction ts as [|[[u v] x] l IH]; cbn in H; [lia|]. destruct (Z.eqb_spec a u) as [->|]; destruct (Z.eqb_spec b v) as [->|]; cbn [andb] in H; [exists x; left; reflexivity| | |]; destruct IH as (x' & I); auto; exists x'; right; auto. }
  destruct EX as (x & I). destruct DD as (A & _). destruct (A a b x I) as (_ & _ & p & q & Ip & Iq & Ha & Hb & LT). exists p, q. repeat (split; auto). intros Hb'.
  apply In_nth_error in Ip as (i & Hi). apply In_nth_error in Iq as (j & Hj). assert (i = j) by (eapply (wm_disjoint ps (df_once _ _ _ _ DF)); eauto). subst j. assert (p = q) by congruence. subst q. lia.
Qed.
End Totals.

(** the net flow of a whole run *)
Record inv (val : Z -> Q) (fuel t : nat) (ps0 ps : list part_in) (w : wworld) (net : Z -> Z -> Z) : Prop := mkInv {
  iv_same : same_but_weights ps0 ps;
  iv_placed : placed ps w;
  iv_df : diffusible val fuel t ps;
  iv_total : all_total ps = all_total ps0;
  iv_anti : forall a b, net b a = (- net a b)%Z;
  iv_flow : forall r p s a b, nth_error ps r = Some p -> nth_error w r = Some s -> In a (in_verts p) -> fl_get (snd s) a b = net a b;
  iv_parts : forall r p0 p, nth_error ps0 r = Some p0 -> nth_error ps r = Some p -> part_total p = (part_total p0 - sumf (fun a => sumf (net a) (flat_map in_verts ps0)) (in_verts p0))%Z;
  iv_apart : forall a b, net a b <> 0%Z -> exists p q, In p ps0 /\ In q ps0 /\ In a (in_verts p) /\ In b (in_verts q) /\ ~ In b (in_verts p) }.

Lemma same_flat ps ps' : same_but_weights ps ps' -> flat_map in_verts ps' = flat_map in_verts ps.
Proof. intros S. now rewrite flat_map_concat_map, (same_verts ps ps' S), <- flat_map_concat_map. Qed.
Lemma inv_step val D fuel t step ps0 ps w net ps' w' ts : inv val fuel t ps0 ps w net -> same_but_weights ps ps' -> placed ps' w' -> diffusible val fuel t ps' -> diffused D step ps ps' ts -> flow_follows ps ts w w' ->
  exists net', inv val fuel t ps0 ps' w' net'.
Proof.
  intros I S P' DF' DD FF. pose proof (iv_df _ _ _ _ _ _ _ I) as DF. exists (fun a b => net a b + carried ts (Z.eqb a) (Z.eqb b) - carried ts (Z.eqb b) (Z.eqb a))%Z. constructor; auto.
  - eapply same_refl_trans; eauto. apply I.
  - rewrite (all_kept val D fuel t step ps ps' ts DF S DD). apply I.
  - intros a b. rewrite (iv_anti _ _ _ _ _ _ _ I a b). lia.
  - intros r p' s' a b Hp' Hs' Ha. destruct (same_nth ps ps' r p' S Hp') as (p & Hp & V & _). rewrite V in Ha. destruct (iv_placed _ _ _ _ _ _ _ I) as (Lw & _). destruct (nth_error w r) as [s|] eqn:Hs; [|apply nth_error_None in Hs; assert (r < length ps) by (apply nth_error_Some; congruence); lia].
    rewrite (FF r p s s' a b Hp Hs Hs' Ha), (iv_flow _ _ _ _ _ _ _ I r p s a b Hp Hs Ha). reflexivity.
  - intros r p0 p' Hp0 Hp'. destruct (same_nth ps ps' r p' S Hp') as (p & Hp & V & _). pose proof (nth_error_In _ _ Hp) as Ip. rewrite (part_change val D fuel t step ps ps' ts DF S DD r p p' Hp Hp'), (iv_parts _ _ _ _ _ _ _ I r p0 p Hp0 Hp).
    rewrite (sent_by_pairs val D fuel t step ps ps' ts DF DD p Ip), (received_by_pairs val D fuel t step ps ps' ts DF DD p Ip). destruct (same_nth ps0 ps r p (iv_same _ _ _ _ _ _ _ I) Hp) as (p1 & Hp1 & V1 & _). assert (p1 = p0) by congruence. subst p1. rewrite V1, (same_flat ps0 ps) by apply I.
    rewrite (sumf_ext _ (fun a => sumf (fun b => net a b + carried ts (Z.eqb a) (Z.eqb b) - carried ts (Z.eqb b) (Z.eqb a))%Z (flat_map in_verts ps0)) (fun a => sumf (net a) (flat_map in_verts ps0) + sumf (fun b => carried ts (Z.eqb a) (Z.eqb b)) (flat_map in_verts ps0) - sumf (fun b => carried ts (Z.eqb b) (Z.eqb a)) (flat_map in_verts ps0))%Z).
    + rewrite sumf_sub, sumf_add. lia.
    + intros a _. rewrite sumf_sub, sumf_add. reflexivity.
  - assert (TR : forall a b, (exists p q, In p ps /\ In q ps /\ In a (in_verts p) /\ In b (in_verts q) /\ ~ In b (in_verts p)) -> exists p q, In p ps0 /\ In q ps0 /\ In a (in_verts p) /\ In b (in_verts q) /\ ~ In b (in_verts p)).
    { intros a b (p & q & Ip & Iq & Ha & Hb & Nb). destruct (same_in ps0 ps p (iv_same _ _ _ _ _ _ _ I) Ip) as (p0 & Ip0 & V1 & _). destruct (same_in ps0 ps q (iv_same _ _ _ _ _ _ _ I) Iq) as (q0 & Iq0 & V2 & _). exists p0, q0. rewrite <- V1, <- V2. auto. }
    intros a b H. destruct (Z.eq_dec (net a b) 0) as [E|]; [|now apply (iv_apart _ _ _ _ _ _ _ I)]. destruct (Z.eq_dec (carried ts (Z.eqb a) (Z.eqb b)) 0) as [E2|N2].
    + assert (N3 : carried ts (Z.eqb b) (Z.eqb a) <> 0%Z) by lia. destruct (TR b a (carried_apart val D fuel t step ps ps' ts DF DD b a N3)) as (p & q & Ip & Iq & Ha & Hb & Nb). exists q, p. repeat (split; auto). intros Hb'. apply Nb.
      apply In_nth_error in Ip as (i & Hi). apply In_nth_error in Iq as (j & Hj). pose proof (df_once _ _ _ _ DF) as HN. rewrite (same_flat ps0 ps) in HN by apply I. assert (i = j) by (eapply (wm_disjoint ps0 HN); eauto). subst j. congruence.
    + apply TR. eapply carried_apart; eauto.
Qed.
Lemma loop_done val D fuel inp sideTol ps0 : (0 < all_total ps0)%Z -> forall k step s w ps net (Q : Z -> wworld -> Prop), inv val fuel (w_type inp) ps0 ps w net -> sd_reach s -> (0 <= step)%Z -> Z.to_nat (w_max inp - step) < k ->
  (forall st ps' w' net', inv val fuel (w_type inp) ps0 ps' w' net' -> (step < st <= Z.max step (w_max inp) + 1)%Z -> Q st w') -> wb_loop val D fuel inp k sideTol step s w Q.
Proof.
  intros POS. induction k as [|k IH]; intros step s w ps net Q I R S0 F HQ; [lia|]. cbn [wb_loop]. destruct (Z.ltb_spec step (w_max inp)) as [L|G]; [|eapply HQ; eauto; lia].
  pose proof (iv_df _ _ _ _ _ _ _ I) as DF. eapply step_mono; [|apply (step_done val D fuel inp ps DF); auto; [rewrite (iv_total _ _ _ _ _ _ _ I); auto|apply I]].
  intros rc s' w' (R' & H). destruct H as [(-> & -> & _)|[([-> | ->] & ->)|(-> & ps' & ts & S & P' & DF' & DD & FF)]]; cbn [Z.eqb]; try (eapply HQ; eauto; lia).
  destruct (inv_step _ _ _ _ _ _ _ _ _ _ _ _ I S P' DF' DD FF) as (net' & I'). eapply IH; eauto; try lia. intros st ps2 w2 net2 I2 B. eapply HQ; eauto. lia.
Qed.
(** simplifyPlan *)
Lemma simplify_get m a b : fl_get (simplify m) a b = Z.max 0 (fl_get m a b).
Proof.
  unfold simplify. assert (G : forall l, find (fun x => Z.eqb (fst (fst x)) a && Z.eqb (snd (fst x)) b) (filter (fun x : Z * Z * Z => (0 <? fl_get m (fst (fst x)) (snd (fst x)))%Z) l) = if (0 <? fl_get m a b)%Z then find (fun x => Z.eqb (fst (fst x)) a && Z.eqb (snd (fst x)) b) l else None).
  { induction l as [|[[u v] x] l IH]; cbn [filter find fst snd]; [now destruct (0 <? _)%Z|]. destruct (Z.eqb_spec u a) as [->|N]; [destruct (Z.eqb_spec v b) as [->|N]|].
    - cbn [andb]. destruct (0 <? fl_get m a b)%Z eqn:E; [cbn [find fst snd]; now rewrite !Z.eqb_refl|exact IH].
    - cbn [andb]. destruct (0 <? fl_get m a v)%Z; auto. cbn [find fst snd]. destruct (Z.eqb_spec v b); [congruence|]. rewrite andb_false_r. exact IH.
    - cbn [andb]. destruct (0 <? fl_get m u v)%Z; auto. cbn [find fst snd]. destruct (Z.eqb_spec u a); [congruence|]. exact IH. }
  unfold fl_get at 1. rewrite G. destruct (Z.ltb_spec 0 (fl_get m a b)); [|lia]. fold (fl_get m a b). lia.
Qed.
Lemma simplify_has m a b : fl_has (simplify m) a b = true <-> (0 < fl_get m a b)%Z.
Proof.
  unfold fl_has, simplify. rewrite existsb_exists. split.
  - intros ([[u v] x] & H & E). apply filter_In in H as (_ & P). cbn [fst snd] in *. apply andb_true_iff in E as (E1 & E2). apply Z.eqb_eq in E1, E2. subst. now apply Z.ltb_lt.
  - intros P. pose proof P as P0. unfold fl_get in P. destruct (find _ m) as [[[u v] x]|] eqn:E; [|lia]. apply find_some in E as (I & E). exists (u, v, x). split; auto. apply filter_In. split; auto. cbn [fst snd] in *. apply andb_true_iff in E as (E1 & E2). apply Z.eqb_eq in E1, E2. subst. now apply Z.ltb_lt.
Qed.
