(** C73 continued: trim and cancel together, for one receiving part, any number of senders and any list of completed dimensions. *)
From Coq Require Import Reals Lra Psatz.
From Flocq Require Import Core BinarySingleNaN.
From Verif Require Import Base GraphModel Comm TagModel ConnModel GraphSpec SelectorModel SelectorProofs.
From Verif Require Import FloatModel FloatSpec FloatProofs FloatProofs2 FloatProofs3 FloatProofs4 FloatProps.
From Verif Require Import CancelFloatModel CancelFloatSpec CancelFloatProofs CancelFloatProofs2 CancelFloatProps GrantFloatProps.
From Verif Require Import TransferFloatModel.
Local Open Scope R_scope.

(** what the kept vertices of one sender bring to part [q] in a dimension: the weights of the edges that are not there yet, or of the
    vertices *)
Definition brings (q : Z) (dim : option nat) (s : sender) (kept : list (nat * Z)) (ws : list b64) : Prop :=
  match dim with
  | Some t => exists S, brought_edges (s_g s) (s_fuel s) t q kept S /\ edge_weights (s_fv s) (s_g s) S ws
  | None => vertex_weights (s_fv s) (s_g s) (s_gw s) q kept ws
  end.
Definition sender_whole (s : sender) : Prop := whole_weights (s_fv s) (s_g s) (s_gw s) /\ (forall l, Permutation (s_ord s l) l) /\ small_caps (s_cap s).
Definition sender_ok (s : sender) : Prop := (forall x, stored_weight (s_g s) (s_gw s) x -> ok (s_fv s x)) /\ (forall l, Permutation (s_ord s l) l) /\ (forall d, Forall ok (s_cap s d)).

Lemma request_inv dims q senders reqs : mapM (request_msg dims q) senders = Some reqs ->
  Forall2 (fun s m => fst m = s_id s /\ length (snd m) = length dims /\ forall x, In x (snd m) -> exists dm, In dm dims /\ request_f (s_fv s) (s_ord s) (s_g s) (s_gw s) (s_fuel s) q (s_plan s) dm = Some x) senders reqs.
Proof.
  revert reqs. induction senders as [|s l IH]; intros reqs H; cbn [mapM] in H; [inversion H; constructor|]. destruct (obind_some _ _ _ H) as (m & Em & H1). destruct (obind_some _ _ _ H1) as (r & Er & H2). inversion H2; subst. constructor; [|now apply IH].
  unfold request_msg in Em. destruct (obind_some _ _ _ Em) as (xs & Ex & H3). inversion H3; subst. cbn [fst snd]. split; auto. split; [now apply (mapM_length _ _ _ _ _ Ex)|]. intros x Hx. destruct (mapM_in _ _ _ _ Ex Hx) as (dm & A & B). eauto.
Qed.
Lemma granted_sum dims q i dm senders kepts (answers : list (Z * list b64)) (F : R -> R -> Prop) :
  (forall a b c d, F a c -> F b d -> F (a + b) (c + d)) -> F 0 0 ->
  nth_error dims i = Some dm ->
  Forall2 (fun s a => s_cap s q = snd a) senders answers -> Forall2 (fun s k => kept_f dims s = Some k) senders kepts ->
  (forall s k c, In s senders -> kept_f dims s = Some k -> nth_error (s_cap s q) i = Some c -> exists ws, brings q dm s k ws /\ F (rsum (vals ws)) (value c)) ->
  Forall (fun s => length (s_cap s q) = length dims) senders ->
  exists wss, Forall2 (fun sk ws => brings q dm (fst sk) (snd sk) ws) (combine senders kepts) wss /\ F (rsum (vals (concat wss))) (granted answers i).
Proof.
  intros FA F0 Hi HA HK. revert kepts HK. induction HA as [|s a senders answers Ea _ IH]; intros kepts HK HB HL.
  - inversion HK; subst. exists []. split; [constructor|exact F0].
  - inversion HK as [|? k ? kepts' Ek HK']; subst. inversion HL as [|? ? Ls HL']; subst. destruct (IH kepts' HK') as (wss & A & B); [intros; eapply HB; eauto; now right|exact HL'|].
    assert (Li : (i < length (s_cap s q))%nat) by (rewrite Ls; apply nth_error_Some; congruence). destruct (nth_error (s_cap s q) i) as [c|] eqn:Ec; [|apply nth_error_None in Ec; lia].
    destruct (HB s k c (or_introl eq_refl) Ek Ec) as (ws & C & D). exists (ws :: wss). split; [constructor; auto|]. cbn [concat]. rewrite vals_app, rsum_app. unfold granted in *. cbn [map rsum fold_right]. rewrite Ea in Ec. rewrite Ec. apply FA; auto.
Qed.
Lemma kept_len dims s k q : kept_f dims s = Some k -> (exists v, In (v, q) (s_plan s)) -> length (s_cap s q) = length dims.
Proof.
  unfold kept_f, cancel_f. intros H (v & Hv). destruct (obind_some _ _ _ H) as (r & Er & _). clear H. apply in_split in Hv. destruct Hv as (a & b & Ep). rewrite Ep, foldM_app in Er. destruct (obind_some _ _ _ Er) as ((st, K) & _ & E2). cbn [foldM] in E2. destruct (obind_some _ _ _ E2) as (z & Ez & _).
  cbn [cancel_step_f] in Ez. destruct (length (s_cap s q) =? length dims)%nat eqn:E; [now apply Nat.eqb_eq|discriminate].
Qed.

(** ** Whole-number weights: no receiving part ends above its limit, or above its weight if that is larger *)
Theorem C73_transfer_whole : forall dims q lims ws senders reqs kepts,
  vertices_once dims -> length lims = length dims -> length ws = length dims ->
  Forall (fun x => ok x /\ value x < IZR (2 ^ 53)) lims -> Forall (fun x => exists k, (0 <= k)%Z /\ whole x k) ws ->
  Forall sender_whole senders ->
  mapM (request_msg dims q) senders = Some reqs -> Forall (fun m => Forall (fun x => fin x = true /\ value x < IZR (2 ^ 53)) (snd m)) reqs ->
  Forall2 (fun s a => s_cap s q = snd a) senders (answers_f lims ws reqs) ->
  Forall2 (fun s k => kept_f dims s = Some k) senders kepts ->
  Forall2 (fun s k => sub k (s_plan s)) senders kepts /\
  forall i dm lim w, nth_error dims i = Some dm -> nth_error lims i = Some lim -> nth_error ws i = Some w ->
    exists wss, Forall2 (fun sk ws => brings q dm (fst sk) (snd sk) ws) (combine senders kepts) wss /\ value w + rsum (vals (concat wss)) <= Rmax (value w) (value lim).
Proof.
  intros dims q lims ws senders reqs kepts H1 L1 L2 OL OW HS HR HF HA HK. pose proof (request_inv _ _ _ _ HR) as HI.
  assert (WR : whole_requests (length lims) reqs).
  { unfold whole_requests. rewrite Forall_forall in HF |- *. intros m Hm. assert (X : exists s, In s senders /\ length (snd m) = length dims /\ forall x, In x (snd m) -> exists dm, In dm dims /\ request_f (s_fv s) (s_ord s) (s_g s) (s_gw s) (s_fuel s) q (s_plan s) dm = Some x).
    { clear - HI Hm. induction HI as [|s a l l' (_ & P) _ IH]; [destruct Hm|]. destruct Hm as [->|Hm]; [exists s; split; [now left|exact P]|]. destruct (IH Hm) as (s' & I & P'). exists s'. split; [now right|exact P']. }
    destruct X as (s & Is & Ls & Rs). split; [congruence|]. apply Forall_forall. intros x Hx. destruct (Rs x Hx) as (dm & _ & Ex). destruct (proj1 (Forall_forall _ _) HS s Is) as (Hw & Ho & _). destruct (proj1 (Forall_forall _ _) (HF m Hm) x Hx) as (Fx & Tx).
    assert (Y : exists w2, Forall (fun w => exists n, (0 <= n)%Z /\ whole w n) w2 /\ x = fsum w2).
    { destruct dm as [t|]; unfold request_f in Ex.
      - destruct (obind_some _ _ _ Ex) as (S2 & _ & E3). destruct (set_weight_names _ _ _ _ _ E3) as (w2 & W2 & ->). exists w2. split; auto. apply (edge_weights_all _ _ (s_gw s) _ _ _ Hw W2).
      - destruct (request_verts _ _ (s_gw s) q _ [] [] (Forall2_nil _) _ Ex) as (w2 & W2 & ->). exists w2. split; auto. eapply vertex_weights_all; eauto. }
    destruct Y as (w2 & O & ->). destruct (ints _ O) as (ns & Wn & Nn). destruct (fsum_red w2) as (Er & Lr). rewrite Er in *. assert (W0 : whole f0 0) by (split; [reflexivity|apply value_f0]).
    destruct (tree_whole (seq_red w2 (Val f0)) (0 :: ns)%Z) as [(W & _)|[(I & _)|(_ & B & _)]]; [rewrite Lr; constructor; auto|constructor; [lia|exact Nn]| | |lra].
    - exists (zsum (0 :: ns)%Z). split; auto. apply zsum_ge0. constructor; [lia|exact Nn].
    - rewrite I in Fx. discriminate Fx. }
  destruct (C73_accept_whole lims ws reqs ltac:(congruence) OL OW WR) as (A1 & A2 & A3). fold (answers_f lims ws reqs) in A1, A2, A3. set (ans := answers_f lims ws reqs) in *.
  assert (Ks : Forall2 (fun s k => sub k (s_plan s)) senders kepts).
  { clear - HK HS H1. induction HK as [|s k l l' E _ IH]; constructor; inversion HS as [|? ? (Hw & Ho & Hc) HS']; subst; auto. unfold kept_f in E. apply (C73_cancel_whole _ _ _ _ _ _ _ _ _ Hw Ho Hc H1 E). }
  split; [exact Ks|]. intros i dm lim w Hi Hl Hww.
  assert (HL : Forall (fun s => length (s_cap s q) = length dims) senders).
  { clear - HA A2 L1. unfold requests_ok in A2. induction HA as [|s a l l' E _ IH]; constructor; inversion A2 as [|? ? (La & _) A2']; subst; auto. rewrite E. congruence. }
  destruct (granted_sum dims q i dm senders kepts ans Rle) as (wss & B1 & B2); auto; [intros; lra|lra| |].
  - intros s k c Is Ek Ec. destruct (proj1 (Forall_forall _ _) HS s Is) as (Hw & Ho & Hc). destruct (C73_cancel_whole _ _ _ _ _ _ _ _ _ Hw Ho Hc H1 Ek) as (_ & CE & CV). destruct dm as [t|].
    + destruct (CE q i t c Hi Ec) as (S & w2 & X & Y & T). exists w2. split; [exists S; auto|exact T].
    + destruct (CV q i c Hi Ec) as (w2 & X & T). exists w2. split; [exact X|exact T].
  - exists wss. split; auto. specialize (A3 i lim w Hl Hww). destruct (Rle_lt_dec (value w) (value lim)) as [L|L].
    + rewrite Rmax_right in A3 by lra. rewrite Rmax_right by lra. lra.
    + rewrite Rmax_left in A3 by lra. rewrite Rmax_left by lra. lra.
Qed.
Print Assumptions C73_transfer_whole.

(** ** Any weights: the same up to the rounding of n answers and of K additions per sender *)
Theorem C73_transfer : forall dims q lims ws senders reqs kepts K,
  vertices_once dims -> length lims = length dims -> length ws = length dims -> Forall ok lims -> Forall ok ws ->
  Forall sender_ok senders ->
  mapM (request_msg dims q) senders = Some reqs -> Forall (fun m => Forall (fun x => fin x = true) (snd m)) reqs ->
  Forall2 (fun s a => s_cap s q = snd a) senders (answers_f lims ws reqs) ->
  Forall2 (fun s k => kept_f dims s = Some k) senders kepts ->
  (forall s k dm wk, In (s, k) (combine senders kepts) -> In dm dims -> brings q dm s k wk -> (length wk < K)%nat) ->
  Forall2 (fun s k => sub k (s_plan s)) senders kepts /\
  forall i dm lim w, nth_error dims i = Some dm -> nth_error lims i = Some lim -> nth_error ws i = Some w ->
    exists wss, Forall2 (fun sk ws => brings q dm (fst sk) (snd sk) ws) (combine senders kepts) wss /\
      (1 - u) ^ K * rsum (vals (concat wss)) <= Rmax 0 (value lim - value w) * (1 + u) * (1 + INR (length senders) * u).
Proof.
  intros dims q lims ws senders reqs kepts K H1 L1 L2 OL OW HS HR HF HA HK HN. pose proof (request_inv _ _ _ _ HR) as HI.
  assert (WR : requests_ok (length lims) reqs).
  { unfold requests_ok. rewrite Forall_forall in HF |- *. intros m Hm. assert (X : exists s, In s senders /\ length (snd m) = length dims /\ forall x, In x (snd m) -> exists dm, In dm dims /\ request_f (s_fv s) (s_ord s) (s_g s) (s_gw s) (s_fuel s) q (s_plan s) dm = Some x).
    { clear - HI Hm. induction HI as [|s a l l' (_ & P) _ IH]; [destruct Hm|]. destruct Hm as [->|Hm]; [exists s; split; [now left|exact P]|]. destruct (IH Hm) as (s' & I & P'). exists s'. split; [now right|exact P']. }
    destruct X as (s & Is & Ls & Rs). split; [congruence|]. apply Forall_forall. intros x Hx. destruct (Rs x Hx) as (dm & _ & Ex). destruct (proj1 (Forall_forall _ _) HS s Is) as (Hw & Ho & _). pose proof (proj1 (Forall_forall _ _) (HF m Hm) x Hx) as Fx. cbv beta in Fx.
    assert (Y : exists w2, Forall ok w2 /\ x = fsum w2).
    { destruct dm as [t|]; unfold request_f in Ex.
      - destruct (obind_some _ _ _ Ex) as (S2 & _ & E3). destruct (set_weight_names _ _ _ _ _ E3) as (w2 & W2 & ->). exists w2. split; auto. apply (edge_weights_all _ _ (s_gw s) _ _ _ Hw W2).
      - destruct (request_verts _ _ (s_gw s) q _ [] [] (Forall2_nil _) _ Ex) as (w2 & W2 & ->). exists w2. split; auto. eapply vertex_weights_all; eauto. }
    destruct Y as (w2 & O & ->). destruct (fsum_ok w2 O) as [Y|Y]; auto. rewrite Y in Fx. discriminate Fx. }
  destruct (C73_accept lims ws reqs ltac:(congruence) OL OW WR) as (A1 & A2 & A3). fold (answers_f lims ws reqs) in A1, A2, A3. set (ans := answers_f lims ws reqs) in *.
  assert (Ks : Forall2 (fun s k => sub k (s_plan s)) senders kepts).
  { clear - HK HS H1. induction HK as [|s k l l' E _ IH]; constructor; inversion HS as [|? ? (Hw & Ho & Hc) HS']; subst; auto. unfold kept_f in E. apply (C73_cancel _ _ _ _ _ _ _ _ _ Hw Ho Hc H1 E). }
  split; [exact Ks|]. intros i dm lim w Hi Hl Hww.
  assert (HL : Forall (fun s => length (s_cap s q) = length dims) senders).
  { clear - HA A2 L1. unfold requests_ok in A2. induction HA as [|s a l l' E _ IH]; constructor; inversion A2 as [|? ? (La & _) A2']; subst; auto. rewrite E. congruence. }
  destruct (granted_sum dims q i dm senders kepts ans (fun s c => (1 - u) ^ K * s <= c)) as (wss & B1 & B2); auto; [intros; lra|lra| |].
  - intros s k c Is Ek Ec. destruct (proj1 (Forall_forall _ _) HS s Is) as (Hw & Ho & Hc). destruct (C73_cancel _ _ _ _ _ _ _ _ _ Hw Ho Hc H1 Ek) as (_ & CE & CV).
    assert (Ic : In (s, k) (combine senders kepts)). { clear - HK Is Ek. induction HK as [|s' k' l l' E _ IH]; [destruct Is|]. destruct Is as [->|Is]; [left; congruence|right; auto]. }
    assert (M : forall w2 n, brings q dm s k w2 -> Forall ok w2 -> (n <= K)%nat -> (1 - u) ^ n * rsum (vals w2) <= value c -> (1 - u) ^ K * rsum (vals w2) <= value c).
    { intros w2 n _ O Ln T. eapply Rle_trans; [|exact T]. apply Rmult_le_compat_r; [now apply rsum_vals_ge0|now apply pow_mono_lo]. }
    pose proof (HN s k dm) as HN'. destruct dm as [t|].
    + destruct (CE q i t c Hi Ec) as (S & w2 & X & Y & T). exists w2. assert (Bw : brings q (Some t) s k w2) by (exists S; auto). split; auto. pose proof (HN' w2 Ic (nth_error_In _ _ Hi) Bw) as Ln. rewrite (edge_len _ _ _ _ Y) in Ln. apply (M w2 (length S + 1)%nat); auto; [|lia]. apply (edge_weights_all _ _ (s_gw s) _ _ _ Hw Y).
    + destruct (CV q i c Hi Ec) as (w2 & X & T). exists w2. split; [exact X|]. pose proof (HN' w2 Ic (nth_error_In _ _ Hi) X) as Ln. apply (M w2 (length w2)); auto; [|lia]. eapply vertex_weights_all; eauto.
  - exists wss. split; auto. specialize (A3 i lim w Hl Hww). assert (Ln : length reqs = length senders) by (apply (mapM_length _ _ _ _ _ HR)). rewrite Ln in A3. lra.
Qed.
Print Assumptions C73_transfer.

(** ** A case: parts 0 and 2 plan the same for part 1, which has place for 90 edges and 15 vertices by weight: part 0 is granted its whole
    request and keeps all, part 2 gets what is left and keeps two of its four vertices *)
Definition tx_sender (g : graph) (id : Z) (ord : list nat -> list nat) (cap : list b64) : sender := mkSender id (fun x => of_int (ex_n x)) ord g None 20 cx_plan (fun _ => cap).
Definition tx_dims : list (option nat) := [Some 0%nat; None].
Definition tx_lims : list b64 := [of_int 100; of_int 100].
Definition tx_ws : list b64 := [of_int 10; of_int 85].
Definition tx_senders (g : graph) (c1 c2 : list b64) : list sender := [tx_sender g 0 (@rev nat) c1; tx_sender g 2 (fun l => l) c2].
Definition tx_small (x : b64) : bool := (fin x && negb (flt x f0) && flt x (of_int (2 ^ 52)))%bool.
Definition tx_eq : forall a b : list (nat * Z), {a = b} + {a <> b} := list_eq_dec (fun x y : nat * Z => ltac:(decide equality; [apply Z.eq_dec|apply Nat.eq_dec])).
Definition tx_check : bool := match cx_g with
  | Some g => match mapM (request_msg tx_dims 1) (tx_senders g [] []) with
    | Some reqs => forallb (fun m => forallb tx_small (snd m)) reqs &&
      match answers_f tx_lims tx_ws reqs with
      | [a1; a2] => forallb tx_small (snd a1) && forallb tx_small (snd a2) &&
        match kept_f tx_dims (tx_sender g 0 (@rev nat) (snd a1)), kept_f tx_dims (tx_sender g 2 (fun l => l) (snd a2)) with
        | Some k1, Some k2 => (if tx_eq k1 cx_plan then true else false) && (if tx_eq k2 [(1, 1%Z); (2, 1%Z)]%nat then true else false)
        | _, _ => false
        end
      | _ => false
      end
    | None => false
    end
  | None => false
  end%bool.
Lemma tx_small_ok x : tx_small x = true -> ok x /\ value x < IZR (2 ^ 53).
Proof.
  intros H. apply andb_true_iff in H. destruct H as (H & C). apply andb_true_iff in H. destruct H as (A & B). destruct (int_whole (2 ^ 52) ltac:(lia)) as (F & V).
  rewrite (flt_ok _ _ A (eq_refl : fin f0 = true)), value_f0 in B. apply negb_true_iff in B. rewrite (flt_ok _ _ A F), V in C.
  assert (L : 0 <= value x) by (destruct (Rlt_bool_spec (value x) 0); [discriminate B|assumption]). assert (U : value x < IZR (2 ^ 52)) by (destruct (Rlt_bool_spec (value x) (IZR (2 ^ 52))); [assumption|discriminate C]).
  split; [split; auto|]. eapply Rlt_trans; [exact U|]. apply IZR_lt. lia.
Qed.
Example C73_transfer_example : exists g reqs c1 c2, cx_g = Some g /\
  vertices_once tx_dims /\ length tx_lims = length tx_dims /\ length tx_ws = length tx_dims /\
  Forall (fun x => ok x /\ value x < IZR (2 ^ 53)) tx_lims /\ Forall (fun x => exists k, (0 <= k)%Z /\ whole x k) tx_ws /\
  Forall sender_whole (tx_senders g c1 c2) /\ Forall sender_ok (tx_senders g c1 c2) /\
  mapM (request_msg tx_dims 1) (tx_senders g c1 c2) = Some reqs /\ Forall (fun m => Forall (fun x => fin x = true /\ value x < IZR (2 ^ 53)) (snd m)) reqs /\
  Forall2 (fun s a => s_cap s 1%Z = snd a) (tx_senders g c1 c2) (answers_f tx_lims tx_ws reqs) /\
  Forall2 (fun s k => kept_f tx_dims s = Some k) (tx_senders g c1 c2) [cx_plan; [(1, 1%Z); (2, 1%Z)]%nat].
Proof.
  destruct C73_cancel_example as (g & E & Hw & Hk & Ho & _). assert (T : tx_check = true) by (vm_compute; reflexivity). unfold tx_check in T. rewrite E in T.
  destruct (mapM (request_msg tx_dims 1) (tx_senders g [] [])) as [reqs|] eqn:Er; [|discriminate T]. apply andb_true_iff in T. destruct T as (T1 & T). destruct (answers_f tx_lims tx_ws reqs) as [|a1 [|a2 [|? ?]]] eqn:Ea; try discriminate T.
  apply andb_true_iff in T. destruct T as (T2 & T). apply andb_true_iff in T2. destruct T2 as (T2 & T3). destruct (kept_f tx_dims (tx_sender g 0 _ _)) as [k1|] eqn:E1; [|discriminate T]. destruct (kept_f tx_dims (tx_sender g 2 _ _)) as [k2|] eqn:E2; [|discriminate T].
  apply andb_true_iff in T. destruct T as (T4 & T5). destruct (tx_eq k1 _) as [->|]; [|discriminate T4]. destruct (tx_eq k2 _) as [->|]; [|discriminate T5].
  assert (Sm : forall l, forallb tx_small l = true -> Forall (fun x => ok x /\ value x < IZR (2 ^ 53)) l) by (intros l H; apply Forall_forall; intros x Hx; apply tx_small_ok; rewrite forallb_forall in H; auto).
  apply Sm in T2, T3.
  assert (C : forall n, (0 <= n < 2 ^ 53)%Z -> ok (of_int n) /\ value (of_int n) < IZR (2 ^ 53)) by (intros n H; split; [apply int_ok, H|destruct (int_whole n H) as (_ & ->); apply IZR_lt, H]).
  assert (Oc : forall c, Forall (fun x => ok x /\ value x < IZR (2 ^ 53)) c -> Forall ok c) by (intros c H; eapply Forall_impl; [|exact H]; intros x (A & _); exact A).
  exists g, reqs, (snd a1), (snd a2). split; [exact E|]. split; [|split; [reflexivity|split; [reflexivity|]]].
  - clear. intros [|[|i]] [|[|j]]; cbn; intros H1 H2; try discriminate; auto; try (destruct i; discriminate); destruct j; discriminate.
  - split; [constructor; [apply C; lia|constructor; [apply C; lia|constructor]]|]. split; [unfold tx_ws; constructor; [|constructor; [|constructor]]; eexists; (split; [|apply int_whole; lia]); lia|].
    split; [|split; [|split; [|split; [|split]]]].
    + constructor; [|constructor; [|constructor]]; (split; [exact Hw|split]); cbn [tx_sender s_ord s_cap]; auto; intros d; assumption.
    + constructor; [|constructor; [|constructor]]; (split; [exact Hk|split]); cbn [tx_sender s_ord s_cap]; auto; intros d; auto.
    + exact Er.
    + apply Forall_forall. intros m Hm. pose proof (proj1 (forallb_forall _ _) T1 m Hm) as Tm. cbv beta in Tm. apply Sm in Tm. apply Forall_forall. intros x Hx. destruct (proj1 (Forall_forall _ _) Tm x Hx) as ((F & _) & U). auto.
    + rewrite Ea. constructor; [reflexivity|]. constructor; [reflexivity|constructor].
    + constructor; [exact E1|]. constructor; [exact E2|constructor].
Qed.
