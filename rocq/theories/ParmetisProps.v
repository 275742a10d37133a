(** C48: the distributed graph handed to ParMETIS, and the plan made from its answer. *)
From Verif Require Import Base GraphModel CsrProofs ConstructProofs GraphSpec AccessProofs AccessProofs2 CountProofs GraphTop GraphTop2 GraphIOProps Comm TagModel TagProps MigrateModel MigrateSpec MigrateProofs1 MigrateProofs2 MigrateProofs5 MigrateTop
  SplitModel SplitProofs ValidModel ValidProps ParmetisModel ParmetisSpec ParmetisProofs ParmetisView.

(* ------------------------------------------------------------------ *)
(** * Weights *)
Lemma zsum_cons x l : zsum (x :: l) = (x + zsum l)%Z. Proof. reflexivity. Qed.
Definition val (w : Z) (L : list (Z * Z)) : Z := zsum (map snd (filter (fun p => Z.eqb (fst p) w) L)).
Lemma val_app w a b : val w (a ++ b) = (val w a + val w b)%Z.
Proof. unfold val. now rewrite filter_app, map_app, zsum_app. Qed.
Lemma val_flat w (G : nat -> list (Z * Z)) l : val w (flat_map G l) = zsum (map (fun i => val w (G i)) l).
Proof. induction l as [|a l IH]; [reflexivity|]. cbn [flat_map map]. rewrite val_app, IH, zsum_cons. reflexivity. Qed.
Lemma val_pins w x ps : val w (map (fun u => (u, x)) ps) = (Z.of_nat (count_occ Z.eq_dec ps w) * x)%Z.
Proof.
  induction ps as [|u ps IH]; [reflexivity|]. change (map (fun u => (u, x)) (u :: ps)) with ([(u, x)] ++ map (fun u => (u, x)) ps). rewrite val_app, IH. cbn [count_occ].
  unfold val. cbn [filter fst]. destruct (Z.eq_dec u w) as [->|N]; [rewrite Z.eqb_refl|destruct (Z.eqb_spec u w); [congruence|]]; cbn [map snd zsum fold_right]; lia.
Qed.
Lemma val_other w v L : w <> v -> val w (filter (fun p => negb (Z.eqb (fst p) v)) L) = val w L.
Proof.
  intros N. unfold val. do 2 f_equal. induction L as [|p L IH]; [reflexivity|]. cbn [filter]. destruct (Z.eqb_spec (fst p) v) as [E|E]; cbn [negb].
  - destruct (Z.eqb_spec (fst p) w); [congruence|]. exact IH.
  - cbn [filter]. destruct (Z.eqb (fst p) w); [f_equal|]; exact IH.
Qed.
Lemma zsum_repeat (f : nat -> Z) (c : edge_input -> nat) l :
  zsum (map f (flat_map (fun p : nat * edge_input => repeat (fst p) (c (snd p))) l)) = zsum (map (fun p : nat * edge_input => (Z.of_nat (c (snd p)) * f (fst p))%Z) l).
Proof.
  induction l as [|[i e] l IH]; [reflexivity|]. cbn [flat_map map fst snd]. rewrite map_app, zsum_app, IH, zsum_cons. f_equal.
  induction (c e) as [|n IHn]; [reflexivity|]. cbn [repeat map]. rewrite zsum_cons, IHn. lia.
Qed.

Lemma combine_seq_ext A B C (f : nat * A -> C) (g : A * B -> C) (es : list A) (xs : list B) : length xs = length es ->
  (forall i e x, nth_error es i = Some e -> nth_error xs i = Some x -> f (i, e) = g (e, x)) -> map f (combine (seq 0 (length es)) es) = map g (combine es xs).
Proof.
  assert (G : forall es xs a, length xs = length es -> (forall i e x, nth_error es i = Some e -> nth_error xs i = Some x -> f (a + i, e) = g (e, x)) ->
     map f (combine (seq a (length es)) es) = map g (combine es xs)).
  { clear. induction es as [|e es IH]; intros [|x xs] a L H; cbn [length] in L; try discriminate; [reflexivity|]. cbn [length seq combine map]. f_equal.
    - rewrite <- (H 0 e x) by reflexivity. now rewrite Nat.add_0_r.
    - apply IH; [lia|]. intros i e' x' He Hx. rewrite <- (H (S i) e' x') by auto. do 2 f_equal. lia. }
  intros L H. apply (G es xs 0); auto.
Qed.

Lemma full_len es ws : (ws = [] \/ length ws = length es) -> length (full_ews es ws) = length es.
Proof. intros H. unfold full_ews. destruct ws; [apply repeat_length|]. destruct H; [discriminate|auto]. Qed.
Lemma wgt_links es ws v w : (ws = [] \/ length ws = length es) -> w <> v -> wgt (around es ws) v w = link_weight (combine es (full_ews es ws)) v w.
Proof.
  intros Hw N. unfold wgt, link_weight. change (val w (around es ws v) = zsum (map (fun ex => (Z.of_nat (count_occ Z.eq_dec (snd (fst ex)) v) * (Z.of_nat (count_occ Z.eq_dec (snd (fst ex)) w) * snd ex))%Z) (combine es (full_ews es ws)))).
  unfold around. rewrite val_other, val_flat by auto. unfold incident. rewrite (zsum_repeat (fun i => val w (map (fun u => (u, nth i (full_ews es ws) 0%Z)) (pins_at es i))) (fun e => count_occ Z.eq_dec (snd e) v)).
  f_equal. apply combine_seq_ext; [now apply full_len|]. intros i e x He Hx. cbn [fst snd]. rewrite val_pins. unfold pins_at. rewrite He. do 2 f_equal. now apply nth_error_nth.
Qed.
Lemma link_weight_perm a b v w : Permutation a b -> link_weight a v w = link_weight b v w.
Proof. intros P. unfold link_weight. apply zsum_perm. now apply Permutation_map. Qed.
Lemma link_weight_sub WH v w f : (forall e x, In (e, x) WH -> f (e, x) = false -> ~ In v (snd e)) -> link_weight (filter f WH) v w = link_weight WH v w.
Proof.
  unfold link_weight. induction WH as [|[e x] WH IH]; intros H; [reflexivity|]. cbn [filter map]. rewrite zsum_cons. rewrite <- IH by (intros e' x' H'; apply H; right; auto).
  destruct (f (e, x)) eqn:E; [reflexivity|]. cbn [fst snd]. pose proof (H e x (or_introl eq_refl) E) as N. apply (count_occ_not_In Z.eq_dec) in N. rewrite N. lia.
Qed.
Lemma link_weight_sym WH v w : link_weight WH v w = link_weight WH w v.
Proof. unfold link_weight. f_equal. apply map_ext. intros ex. lia. Qed.
Lemma combine_at A B (l : list A) (m : list B) i a b : nth_error l i = Some a -> nth_error m i = Some b -> nth_error (combine l m) i = Some (a, b).
Proof. revert m i. induction l as [|x l IH]; intros [|y m] [|i] H H'; cbn in *; try discriminate; [congruence|auto]. Qed.
Lemma in_combine_at A B (es : list A) (xs : list B) e : length xs = length es -> In e es -> exists x, In (e, x) (combine es xs).
Proof.
  intros L H. apply In_nth_error in H as (i & Hi). destruct (nth_error xs i) as [x|] eqn:Ex.
  - exists x. eapply nth_error_In. apply combine_at; eauto.
  - apply nth_error_None in Ex. assert (i < length es) by (apply nth_error_Some; congruence). lia.
Qed.
Lemma around_keys es ws v w : In w (map fst (around es ws v)) <-> w <> v /\ exists e, In e es /\ In v (snd e) /\ In w (snd e).
Proof.
  rewrite in_map_iff. split.
  - intros ((w' & x) & <- & H). apply in_around in H as (N & i & e & Hi & He & Hw & _). cbn [fst]. split; auto. exists e. apply in_incident in Hi as (e' & He' & Hv).
    assert (e' = e) by congruence. subst. split; [eapply nth_error_In; eauto|auto].
  - intros (N & e & He & Hv & Hw). apply In_nth_error in He as (i & Hi). exists (w, nth i (full_ews es ws) 0%Z). split; auto. apply in_around. split; auto. exists i, e. split; [apply in_incident; eauto|auto].
Qed.
Lemma pins_at_len es i : length (pins_at es i) <= length (concat (pins_of es)).
Proof.
  unfold pins_at. destruct (nth_error es i) as [e|] eqn:E; [|cbn; lia]. apply nth_error_In in E. apply in_split in E as (a & b & ->). unfold pins_of. rewrite map_app, concat_app. cbn [map concat].
  rewrite !app_length. lia.
Qed.
Lemma around_fuel es v N : length (concat (pins_of es)) <= N -> length (flat_map (pins_at es) (incident v es)) <= N * N.
Proof.
  intros H. assert (G : forall l, length (flat_map (pins_at es) l) <= length l * N).
  { induction l as [|i l IH]; [cbn; lia|]. cbn [flat_map length]. rewrite app_length. pose proof (pins_at_len es i). lia. }
  specialize (G (incident v es)). pose proof (incident_len v es). nia.
Qed.

(* ------------------------------------------------------------------ *)
(** * Numbering *)
Lemma first_numbers_nth parts r : r <= length parts -> nth_error (first_numbers parts) r = Some (Z.of_nat (length (concat (map pi_verts (firstn r parts))))).
Proof. intros H. unfold first_numbers. rewrite nth_error_map, nth_error_seq by lia. reflexivity. Qed.
Lemma concat_nth parts r p i v : nth_error parts r = Some p -> nth_error (pi_verts p) i = Some v ->
  nth_error (all_vertices parts) (length (concat (map pi_verts (firstn r parts))) + i) = Some v.
Proof.
  unfold all_vertices. revert r. induction parts as [|q parts IH]; intros [|r] Hr Hi; try discriminate.
  - cbn in Hr. inversion Hr; subst. cbn [firstn map concat length Nat.add]. rewrite nth_error_app1; auto. apply nth_error_Some. congruence.
  - cbn in Hr. cbn [firstn map concat]. rewrite app_length, nth_error_app2 by lia. replace (_ + _ + i - _) with (length (concat (map pi_verts (firstn r parts))) + i) by lia. auto.
Qed.
(** every vertex of rank r is owned by r, once *)
Definition owned (own : Z -> nat) (parts : list part_input) : Prop :=
  forall r p, nth_error parts r = Some p -> NoDup (pi_verts p) /\ forall v, In v (pi_verts p) -> own v = r.
Lemma owned_nodup own parts : owned own parts -> NoDup (all_vertices parts).
Proof.
  intros HD. unfold all_vertices.
  assert (G : forall l a, (forall r p, nth_error l r = Some p -> NoDup (pi_verts p) /\ forall v, In v (pi_verts p) -> own v = a + r) -> NoDup (concat (map pi_verts l)) /\ forall v, In v (concat (map pi_verts l)) -> a <= own v).
  { induction l as [|p l IH]; intros a H; [split; [constructor|intros v []]|]. cbn [map concat]. destruct (IH (S a)) as (I1 & I2).
    { intros r q Hq. destruct (H (S r) q Hq) as (A & B). split; auto. intros v Hv. rewrite (B v Hv). lia. }
    destruct (H 0 p eq_refl) as (A & B). split.
    - apply NoDup_app_iff. split; auto. split; auto. intros v Hv Hv'. specialize (I2 v Hv'). rewrite (B v Hv) in I2. lia.
    - intros v Hv. apply in_app_iff in Hv as [Hv|Hv]; [rewrite (B v Hv); lia|specialize (I2 v Hv); lia]. }
  apply (G parts 0). intros r p Hr. apply (HD r p Hr).
Qed.
Lemma distributed_owned own WH t parts : distributed own WH t parts -> owned own parts.
Proof. intros (_ & HD) r p Hr. destruct (HD r p Hr) as ((V & _) & O & _). auto. Qed.
Lemma vertices_nodup own WH t parts : distributed own WH t parts -> NoDup (all_vertices parts).
Proof. intros HD. eapply owned_nodup, distributed_owned, HD. Qed.
Lemma numbering_gen own parts : owned own parts ->
  (forall r p i v, nth_error parts r = Some p -> nth_error (pi_verts p) i = Some v ->
     exists d, nth_error (first_numbers parts) r = Some d /\ number parts v = (d + Z.of_nat i)%Z) /\
  (forall v w, In v (all_vertices parts) -> In w (all_vertices parts) -> number parts v = number parts w -> v = w) /\
  (forall k, (0 <= k < Z.of_nat (length (all_vertices parts)))%Z <-> exists v, In v (all_vertices parts) /\ number parts v = k) /\
  nth_error (first_numbers parts) 0 = Some 0%Z /\ nth_error (first_numbers parts) (length parts) = Some (Z.of_nat (length (all_vertices parts))).
Proof.
  intros HD. pose proof (owned_nodup _ _ HD) as ND. split; [|split; [|split; [|split]]].
  - intros r p i v Hr Hi. exists (Z.of_nat (length (concat (map pi_verts (firstn r parts))))).
    split; [apply first_numbers_nth; assert (r < length parts) by (apply nth_error_Some; congruence); lia|]. unfold number. rewrite (nth_idx _ _ _ ND (concat_nth _ _ _ _ _ Hr Hi)). lia.
  - intros v w Hv Hw E. unfold number in E. eapply idx_inj; [exact Hv|exact Hw|lia].
  - intros k. split.
    + intros Hk. destruct (nth_error (all_vertices parts) (Z.to_nat k)) as [v|] eqn:E; [|apply nth_error_None in E; lia]. exists v. split; [eapply nth_error_In; eauto|].
      unfold number. rewrite (nth_idx _ _ _ ND E). lia.
    + intros (v & Hv & <-). unfold number. pose proof (idx_lt _ _ Hv). lia.
  - rewrite first_numbers_nth by lia. reflexivity.
  - rewrite first_numbers_nth by lia. now rewrite firstn_all.
Qed.
(** The new numbers: rank r gets the numbers from first_numbers r on, in the order of its vertices; no two vertices share one;
    all numbers from 0 to the number of vertices are used. *)
Theorem C48_numbering : forall own WH t parts, distributed own WH t parts ->
  (forall r p i v, nth_error parts r = Some p -> nth_error (pi_verts p) i = Some v ->
     exists d, nth_error (first_numbers parts) r = Some d /\ number parts v = (d + Z.of_nat i)%Z) /\
  (forall v w, In v (all_vertices parts) -> In w (all_vertices parts) -> number parts v = number parts w -> v = w) /\
  (forall k, (0 <= k < Z.of_nat (length (all_vertices parts)))%Z <-> exists v, In v (all_vertices parts) /\ number parts v = k) /\
  nth_error (first_numbers parts) 0 = Some 0%Z /\ nth_error (first_numbers parts) (length parts) = Some (Z.of_nat (length (all_vertices parts))).
Proof.
  intros own WH t parts HD. eapply numbering_gen, distributed_owned, HD.
Qed.

(* ------------------------------------------------------------------ *)
(** * All parts *)
Lemma starting_nth gs r s : nth_error (starting gs) r = Some s <-> exists g, nth_error gs r = Some g /\ s = mkPM g (Z.of_nat r).
Proof.
  unfold starting. assert (G : forall l a k, nth_error (map (fun rg : nat * graph => mkPM (snd rg) (Z.of_nat (fst rg))) (combine (seq a (length l)) l)) k = option_map (fun g => mkPM g (Z.of_nat (a + k))) (nth_error l k)).
  { induction l as [|g l IH]; intros a [|k]; cbn; auto. - now rewrite Nat.add_0_r. - rewrite IH. f_equal. now rewrite Nat.add_succ_comm. }
  rewrite G. cbn [Nat.add]. destruct (nth_error gs r); cbn; split; [intros H; inversion H; eauto|intros (g' & H & ->); congruence|discriminate|intros (? & ? & _); discriminate].
Qed.
Lemma starting_len gs : length (starting gs) = length gs.
Proof. unfold starting. rewrite map_length, combine_length, seq_length. lia. Qed.
Lemma built_nth hg parts gs r g : build_parts hg parts = Some gs -> nth_error gs r = Some g ->
  exists p, nth_error parts r = Some p /\ build_part (Z.of_nat r) hg (pi_verts p) (pi_vws p) (pi_tys p) (pi_owns p) = Some g.
Proof.
  intros HB Hg. pose proof (built_len _ _ _ HB) as L. destruct (nth_error parts r) as [p|] eqn:Ep.
  - exists p. split; auto. unfold build_parts in HB. assert (N : nth_error (combine (seq 0 (length parts)) parts) r = Some (r, p)).
    { apply combine_at; auto. rewrite nth_error_seq; [reflexivity|]. apply nth_error_Some. congruence. }
    destruct (mapM_nth _ _ _ _ _ _ _ HB N) as (y & Hy & Ey). cbn [fst snd] in Ey. congruence.
  - apply nth_error_None in Ep. assert (r < length gs) by (apply nth_error_Some; congruence). lia.
Qed.

Lemma vtxdist_starting parts gs : length gs = length parts -> (forall r g p, nth_error gs r = Some g -> nth_error parts r = Some p -> self g = Z.of_nat r /\ nlv g = length (pi_verts p)) ->
  vtxdist_of (starting gs) = first_numbers parts.
Proof.
  intros L H. unfold vtxdist_of, allreduce_sum, first_numbers. rewrite starting_len, L. apply map_ext_in. intros i Hi. apply in_seq in Hi. rewrite map_map. unfold starting. rewrite map_map.
  set (P := length parts) in *.
  assert (E : map (fun x : nat * graph => nth i (vtxdist_share P (mkPM (snd x) (Z.of_nat (fst x)))) 0%Z) (combine (seq 0 (length gs)) gs)
    = map (fun x : nat * graph => if (self (snd x) <? Z.of_nat i)%Z then Z.of_nat (nlv (snd x)) else 0%Z) (combine (seq 0 (length gs)) gs)).
  { apply map_ext. intros [r g]. unfold vtxdist_share. cbn [snd fst pm_g]. erewrite nth_error_nth; [reflexivity|]. rewrite nth_error_map, nth_error_seq by lia. reflexivity. }
  rewrite E. clear E.
  assert (G : forall gs parts a i, length gs = length parts -> (forall r g p, nth_error gs r = Some g -> nth_error parts r = Some p -> self g = Z.of_nat (a + r) /\ nlv g = length (pi_verts p)) ->
    zsum (map (fun x : nat * graph => if (self (snd x) <? Z.of_nat (a + i))%Z then Z.of_nat (nlv (snd x)) else 0%Z) (combine (seq a (length gs)) gs)) = Z.of_nat (length (concat (map pi_verts (firstn i parts))))).
  { clear. induction gs as [|g gs IH]; intros [|p parts] a i L H; cbn [length] in L; try discriminate; [now destruct i|]. cbn [length seq combine map]. rewrite zsum_cons. cbn [snd].
    destruct (H 0 g p eq_refl eq_refl) as (E1 & E2). rewrite E1, E2.
    assert (H' : forall r g p, nth_error gs r = Some g -> nth_error parts r = Some p -> self g = Z.of_nat (S a + r) /\ nlv g = length (pi_verts p)).
    { intros r g' p' Hg Hp. destruct (H (S r) g' p' Hg Hp) as (X & Y). split; auto. rewrite X. lia. }
    destruct i as [|i].
    - destruct (Z.ltb_spec (Z.of_nat (a + 0)) (Z.of_nat (a + 0))); [lia|]. cbn [firstn map concat length].
      assert (X : forall l k b, (forall r g, nth_error l r = Some g -> exists r', self g = Z.of_nat (S a + r')) -> map (fun x : nat * graph => if (self (snd x) <? Z.of_nat (a + 0))%Z then Z.of_nat (nlv (snd x)) else 0%Z) (combine (seq b k) l) = map (fun _ => 0%Z) (combine (seq b k) l)).
      { clear. induction l as [|g l IH]; intros [|k] b H; cbn [seq combine map]; auto. f_equal; [|apply IH; intros r g' Hg; apply (H (S r) g' Hg)]. cbn [snd]. destruct (H 0 g eq_refl) as (r' & E). rewrite E. destruct (Z.ltb_spec (Z.of_nat (S a + r')) (Z.of_nat (a + 0))); [lia|auto]. }
      rewrite X.
      + cbn [Z.add]. clear. generalize (combine (seq (S a) (length gs)) gs). induction l as [|x l IH]; [reflexivity|]. cbn [map]. rewrite zsum_cons, IH. reflexivity.
      + intros r g' Hg. destruct (nth_error parts r) as [p'|] eqn:Ep; [destruct (H' r g' p' Hg Ep) as (Q & _); eauto|]. apply nth_error_None in Ep. assert (r < length gs) by (apply nth_error_Some; congruence). lia.
    - destruct (Z.ltb_spec (Z.of_nat (a + 0)) (Z.of_nat (a + S i))); [|lia]. cbn [firstn map concat]. rewrite app_length.
      specialize (IH parts (S a) i ltac:(lia) H'). replace (S a + i) with (a + S i) in IH by lia. rewrite IH. lia. }
  apply (G gs parts 0 i L H).
Qed.

Lemma F2_impl_in A B (R R' : A -> B -> Prop) l m : Forall2 R l m -> (forall a b, In a l -> R a b -> R' a b) -> Forall2 R' l m.
Proof. induction 1; intros H'; constructor; [apply H'; [left; auto|auto]|]. apply IHForall2. intros; apply H'; [right|]; auto. Qed.

(** All parts, for any way the vertices are linked: what [view] says of each part is enough. *)
Section Links.
Variables (own : Z -> nat) (t fuel : nat) (parts : list part_input) (gs : list graph) (ord : list (nat * Z) -> list (nat * Z)) (lk : Z -> Z -> Prop) (lw : Z -> Z -> Z).
Hypothesis LG : length gs = length parts.
Hypothesis HOwn : owned own parts.
Hypothesis HLk : forall v w, lk v w -> v <> w /\ (exists p, nth_error parts (own w) = Some p /\ In w (pi_verts p)) /\ lk w v.
Hypothesis Hord : forall l, Permutation (ord l) l.
Hypothesis links_facts : forall r g, nth_error gs r = Some g -> exists p nb hd ow, nth_error parts r = Some p /\
  view t fuel g (Z.of_nat r) (pi_verts p) (full_vws (pi_verts p) (pi_vws p)) nb hd ow /\
  (forall v w, In v (pi_verts p) -> In w (map fst (nb v)) <-> lk v w) /\
  (forall v w, In v (pi_verts p) -> w <> v -> wgt nb v w = lw v w) /\
  (forall v w, In v (pi_verts p) -> In w (map fst (nb v)) -> ow w = Z.of_nat (own w)).

Lemma links_dist : vtxdist_of (starting gs) = first_numbers parts.
Proof.
  apply vtxdist_starting; [exact LG|]. intros r g p Hg Hp. destruct (links_facts r g Hg) as (p' & nb & hd & ow & Hp' & HV & _). assert (p' = p) by congruence. subst p'.
  split; [apply (v_self _ _ _ _ _ _ _ _ _ HV)|apply (v_n _ _ _ _ _ _ _ _ _ HV)].
Qed.

Lemma links_graph : parmetis_input false t fuel ord (starting gs) (fun dist csrs =>
  dist = first_numbers parts /\ length csrs = length parts /\
  forall r p c, nth_error parts r = Some p -> nth_error csrs r = Some c -> exists rows,
    is_csr rows c /\ c_vwgts c = ainit (full_vws (pi_verts p) (pi_vws p)) /\
    Forall2 (right_row (number parts) lk lw) (pi_verts p) rows).
Proof.
  unfold parmetis_input. rewrite links_dist. set (dist := first_numbers parts).
  destruct (numbering_gen _ _ HOwn) as (NUM & _ & _ & _ & _). fold dist in NUM.
  set (base := fun r => Z.of_nat (length (concat (map pi_verts (firstn r parts))))).
  assert (DB : forall r, r < length parts -> nth_error dist (Z.to_nat (Z.of_nat r)) = Some (base r)) by (intros r Hr; rewrite Nat2Z.id; apply first_numbers_nth; lia).
  assert (NB : forall r p i v, nth_error parts r = Some p -> nth_error (pi_verts p) i = Some v -> number parts v = (base r + Z.of_nat i)%Z).
  { intros r p i v Hr Hi. destruct (NUM r p i v Hr Hi) as (d & Hd & E). assert (r < length parts) by (apply nth_error_Some; congruence). rewrite <- (Nat2Z.id r) in Hd. rewrite DB in Hd by auto. congruence. }
  apply local_intro with (PB := fun r sp => exists g, nth_error gs r = Some g /\ fst sp = mkPM g (Z.of_nat r) /\ run_pass1 false t fuel dist (mkPM g (Z.of_nat r)) = Some (snd sp)).
  - intros r s Hs. apply starting_nth in Hs as (g & Hg & ->). destruct (links_facts r g Hg) as (p & nb & hd & ow & Hp & HV & _).
    assert (Lr : r < length parts) by (apply nth_error_Some; congruence).
    destruct (pass1_ok _ _ _ _ _ _ _ _ _ HV false (Z.of_nat r) dist (base r) ltac:(lia) (DB r Lr)) as (p1 & E & _). rewrite E. cbn [obind]. eexists. split; [reflexivity|]. exists g. auto.
  - intros sp Lsp Hsp. rewrite starting_len in Lsp.
    assert (FACT : forall r x, nth_error sp r = Some x -> exists g p nb hd ow, nth_error gs r = Some g /\ nth_error parts r = Some p /\ r < length parts /\ fst x = mkPM g (Z.of_nat r) /\
       view t fuel g (Z.of_nat r) (pi_verts p) (full_vws (pi_verts p) (pi_vws p)) nb hd ow /\
       (forall v w, In v (pi_verts p) -> In w (map fst (nb v)) <-> lk v w) /\
       (forall v w, In v (pi_verts p) -> w <> v -> wgt nb v w = lw v w) /\
       (forall v w, In v (pi_verts p) -> In w (map fst (nb v)) -> ow w = Z.of_nat (own w)) /\
       p1_gids (snd x) = ainit (map (fun i => (base r + Z.of_nat i)%Z) (seq 0 (length (pi_verts p)))) /\
       p1_degs (snd x) = nsum (map (fun v => length (nbs nb ow false (Z.of_nat r) v)) (pi_verts p)) /\
       (forall q v y, In (q, (v, y)) (p1_msgs (snd x)) <-> exists i w, nth_error (pi_verts p) i = Some v /\ y = (base r + Z.of_nat i)%Z /\ lk v w /\ Z.of_nat (own w) = q /\ q <> Z.of_nat r)).
    { intros r [s p1] Hx. destruct (Hsp r _ Hx) as (g & Hg & Es & Er). cbn [fst snd] in *. destruct (links_facts r g Hg) as (p & nb & hd & ow & Hp & HV & LK & WG & OW).
      assert (Lr : r < length parts) by (apply nth_error_Some; congruence).
      destruct (pass1_ok _ _ _ _ _ _ _ _ _ HV false (Z.of_nat r) dist (base r) ltac:(lia) (DB r Lr)) as (p1' & E & G1 & G2 & G3). assert (p1' = p1) by congruence. subst p1'.
      exists g, p, nb, hd, ow. do 10 (split; [auto|]). intros q v y. rewrite G3. unfold announces. cbn [fst snd]. split.
      - intros (_ & i & v' & w & Hi & Em & Hw' & Ho & N). inversion Em; subst v' y. assert (HvV : In v (pi_verts p)) by (eapply nth_error_In; eauto). exists i, w. split; auto. split; auto. split; [apply LK; auto|]. rewrite <- Ho. split; [|congruence]. symmetry. apply (OW v w HvV Hw').
      - intros (i & w & Hi & -> & Hl & <- & N). assert (HvV : In v (pi_verts p)) by (eapply nth_error_In; eauto). assert (Hw' : In w (map fst (nb v))) by (apply LK; auto).
        split; auto. exists i, v, w. split; auto. split; auto. split; auto. split; [apply (OW v w HvV Hw')|auto]. }
    apply phase_intro with (PB := fun r c => exists g p rows, nth_error gs r = Some g /\ nth_error parts r = Some p /\ is_csr rows c /\ c_vwgts c = ainit (full_vws (pi_verts p) (pi_vws p)) /\
        Forall2 (right_row (number parts) lk lw) (pi_verts p) rows).
    + intros r x Hx. destruct (FACT r x Hx) as (g & p & nb & hd & ow & Hg & Hp & Lr & _ & _ & _ & _ & _ & _ & _ & MS). eexists. split; [reflexivity|]. intros [q [v y]] Hm. apply MS in Hm as (i & w & Hi & _ & Hl & <- & _).
      cbn [fst]. destruct (HLk _ _ Hl) as (_ & (p' & Hp' & _) & _). assert (own w < length parts) by (apply nth_error_Some; congruence). rewrite Lsp, LG. lia.
    + intros sent rcv Es D r x arr Hx Harr. destruct (FACT r x Hx) as (g & p & nb & hd & ow & Hg & Hp & Lr & Efx & HV & LK & WG & OW & G1 & G2 & _).
      assert (ARR : forall q w y, In (q, (w, y)) arr <-> exists k x' p' i u, nth_error sp k = Some x' /\ nth_error parts k = Some p' /\ q = Z.of_nat k /\ nth_error (pi_verts p') i = Some w /\ y = (base k + Z.of_nat i)%Z /\ lk w u /\ own u = r /\ k <> r).
      { intros q w y. rewrite (arrived_in _ _ _ _ _ _ _ _ q (w, y) Es D Harr). split.
        - intros (k & a & ms & Ha & Ems & -> & Hin). inversion Ems; subst ms. destruct (FACT k a Ha) as (g' & p' & nb' & hd' & ow' & Hg' & Hp' & _ & _ & _ & _ & _ & _ & _ & _ & MS). apply MS in Hin as (i & u & Hi & -> & Hl & Ho & N).
          exists k, a, p', i, u. do 6 (split; [auto|]). split; [lia|]. intros ->. lia.
        - intros (k & a & p' & i & u & Ha & Hp' & -> & Hi & -> & Hl & Ho & N). exists k, a, (p1_msgs (snd a)). split; auto. split; auto. split; auto.
          destruct (FACT k a Ha) as (g' & p'' & nb' & hd' & ow' & Hg' & Hp'' & _ & _ & _ & _ & _ & _ & _ & _ & MS). assert (p'' = p') by congruence. subst p''. apply MS. exists i, u. do 3 (split; [auto|]). split; lia. }
      assert (HLOC : forall v w, In v (pi_verts p) -> In w (map fst (nb v)) -> ow w = Z.of_nat r -> In w (pi_verts p)).
      { intros v w Hv Hw E. rewrite (OW v w Hv Hw) in E. apply Nat2Z.inj in E. apply LK in Hw; auto. destruct (HLk _ _ Hw) as (_ & (p' & Hp' & I) & _). congruence. }
      destruct (pass2_ok _ _ _ _ _ _ _ _ _ HV false (Z.of_nat r) (base r) (number parts) (ghost_numbers arr) (fun i v H => NB r p i v Hp H) HLOC) with (ord := ord) (p1 := snd x) (arrived := arr) as (c & rows & Ec & CS & RW & VW).
      * intros v w Hv Hw _ No. rewrite (OW v w Hv Hw) in No. apply LK in Hw; auto. destruct (HLk _ _ Hw) as (N & (p' & Hp' & Iw) & Hback). apply In_nth_error in Iw as (i & Hi).
        assert (Lk : own w < length sp) by (rewrite Lsp, LG; apply nth_error_Some; congruence). destruct (nth_error sp (own w)) as [x2|] eqn:Ex2; [|apply nth_error_None in Ex2; lia].
        assert (Ov : own v = r) by (apply (HOwn r p Hp); auto).
        apply ghost_numbers_find.
        -- exists (Z.of_nat (own w)). apply ARR. exists (own w), x2, p', i, v. do 4 (split; [auto|]). split; [apply (NB _ _ _ _ Hp' Hi)|]. split; [exact Hback|]. split; [exact Ov|]. intros X. apply No. now rewrite X.
        -- intros q y Hin. apply ARR in Hin as (k & x3 & p3 & i3 & u & _ & Hp3 & _ & Hi3 & -> & _). symmetry. apply (NB _ _ _ _ Hp3 Hi3).
      * exact Hord. * exact G1. * exact G2. * reflexivity.
      * rewrite Efx. exists c. split; [exact Ec|]. exists g, p, rows. split; auto. split; auto. split; auto. split; auto.
        clear - RW LK WG HLk. assert (X : forall v, In v (pi_verts p) -> forall row, row_ok nb ow false (Z.of_nat r) (number parts) v row -> right_row (number parts) lk lw v row).
        { intros v Hv row (l & P & ->). exists l. assert (IN : forall w, In w l <-> In w (map fst (nb v))).
          { intros w. split; intros H; [apply (Permutation_in _ P), in_nbs in H; tauto|]. eapply Permutation_in; [apply Permutation_sym, P|]. apply in_nbs. auto. }
          split; [eapply Permutation_NoDup; [apply Permutation_sym, P|apply NoDup_nodup]|]. split; [intros w; rewrite IN; auto|]. apply map_ext_in. intros w Hw. f_equal. apply WG; auto.
          apply IN, LK in Hw; auto. destruct (HLk _ _ Hw) as (N & _). auto. }
        eapply F2_impl_in; [exact RW|]. intros v row Hv HR. apply X; auto.
    + intros csrs LC HC. split; auto. split; [lia|]. intros r p c Hp Hc. destruct (HC r c Hc) as (g & p' & rows & Hg & Hp' & A & B & C). assert (p' = p) by congruence. subst p'. eauto.
Qed.

End Links.

Section All.
Variables (own : Z -> nat) (WH : list (edge_input * Z)) (t fuel : nat) (parts : list part_input) (gs : list graph) (ord : list (nat * Z) -> list (nat * Z)).
Hypothesis HD : distributed own WH t parts.
Hypothesis HB : build_parts true parts = Some gs.
Hypothesis HF : forall p, In p parts -> enough p fuel.
Hypothesis Hord : forall l, Permutation (ord l) l.

(** everything known about rank r *)
Lemma rank_facts r g : nth_error gs r = Some g -> exists p es ws, nth_error parts r = Some p /\
  view t fuel g (Z.of_nat r) (pi_verts p) (full_vws (pi_verts p) (pi_vws p)) (around es ws) (hnd (pi_verts p) (pi_tys p)) (part_of (Z.of_nat r) (pi_verts p) (pi_owns p)) /\
  nth_error (pi_tys p) t = Some (es, ws) /\ (ws = [] \/ length ws = length es) /\
  (forall v w, In v (pi_verts p) -> In w (map fst (around es ws v)) <-> linked WH v w) /\
  (forall v w, In v (pi_verts p) -> w <> v -> wgt (around es ws) v w = link_weight WH v w) /\
  (forall v w, In v (pi_verts p) -> In w (map fst (around es ws v)) -> part_of (Z.of_nat r) (pi_verts p) (pi_owns p) w = Z.of_nat (own w)).
Proof.
  intros Hg. destruct (built_nth _ _ _ _ _ HB Hg) as (p & Hp & B). destruct HD as (HP & HQ). destruct (HQ r p Hp) as (V & O & es & ws & Ht & PM & OW).
  destruct (HF p (nth_error_In _ _ Hp)) as (F1 & F2). assert (InT : In (es, ws) (pi_tys p)) by (eapply nth_error_In; eauto).
  pose proof (pins_len _ _ _ InT) as PL.
  assert (Hw : ws = [] \/ length ws = length es) by (apply V; auto).
  pose proof (full_len es ws Hw) as FL.
  assert (ES : forall e, In e es <-> exists x, In (e, x) WH /\ exists v, In v (snd e) /\ own v = r).
  { intros e. split.
    - intros He. destruct (in_combine_at _ _ _ _ _ FL He) as (x & Hx). apply (Permutation_in _ PM) in Hx. apply filter_In in Hx as (Hx & Hv). exists x. split; auto.
      apply existsb_exists in Hv as (v & Hv & E). apply Nat.eqb_eq in E. eauto.
    - intros (x & Hx & v & Hv & E). assert (X : In (e, x) (combine es (full_ews es ws))); [|apply in_combine_l in X; auto]. eapply Permutation_in; [apply Permutation_sym, PM|].
      apply filter_In. split; auto. apply existsb_exists. exists v. split; auto. now apply Nat.eqb_eq. }
  assert (LK : forall v w, In v (pi_verts p) -> In w (map fst (around es ws v)) <-> linked WH v w).
  { intros v w Hv. rewrite around_keys. split.
    - intros (N & e & He & Hve & Hwe). split; auto. apply ES in He as (x & Hx & _). exists e, x. auto.
    - intros (N & e & x & He & Hve & Hwe). split; auto. exists e. split; auto. apply ES. exists x. split; auto. exists v. auto. }
  exists p, es, ws. split; auto. split.
  { apply view_hyper; auto.
    - intros v Hv. pose proof (incident_len v es). pose proof (around_fuel es v _ PL). split; nia.
    - intros e He. apply In_nth_error in He as (i & Hi). pose proof (pins_at_len es i) as X. unfold pins_at in X. rewrite Hi in X. nia. }
  split; auto. split; auto. split; auto. split.
  - intros v w Hv N. rewrite wgt_links by auto. rewrite (link_weight_perm _ _ v w PM). apply link_weight_sub. intros e x He Hf Hve.
    assert (existsb (fun v => Nat.eqb (own v) r) (snd (fst (e, x))) = true); [|congruence]. apply existsb_exists. exists v. split; auto. apply Nat.eqb_eq. auto.
  - intros v w Hv Hw'. apply around_keys in Hw' as (N & e & He & Hve & Hwe). unfold part_of. destruct (in_dec Z.eq_dec w (pi_verts p)) as [I|I]; [now rewrite (O w I)|].
    rewrite (OW e w He Hwe); auto. intros E. apply I. apply ES in He as (x & Hx & _). destruct (HP e x w Hx Hwe) as (q & Hq & Hwq). congruence.
Qed.

Lemma hyper_graph : parmetis_input false t fuel ord (starting gs) (fun dist csrs =>
  dist = first_numbers parts /\ length csrs = length parts /\
  forall r p c, nth_error parts r = Some p -> nth_error csrs r = Some c -> exists rows,
    is_csr rows c /\ c_vwgts c = ainit (full_vws (pi_verts p) (pi_vws p)) /\
    Forall2 (right_row (number parts) (linked WH) (link_weight WH)) (pi_verts p) rows).
Proof.
  apply links_graph with (own := own); auto.
  - apply (built_len _ _ _ HB).
  - eapply distributed_owned; eauto.
  - intros v w (N & e & x & He & Hv & Hw). split; auto. split; [apply (proj1 HD e x w He Hw)|]. split; auto. exists e, x. auto.
  - intros r g Hg. destruct (rank_facts r g Hg) as (p & es & ws & Hp & HV & _ & _ & LK & WG & OW). exists p, (around es ws), (hnd (pi_verts p) (pi_tys p)), (part_of (Z.of_nat r) (pi_verts p) (pi_owns p)). auto.
Qed.
End All.

(** The arrays given to ParMETIS describe the vertex adjacency graph of the distributed hypergraph: for any number of parts,
    any traversal order of the unordered maps and any arrival order of the messages, the computation is defined, the rows of
    each part are those of its vertices in order, each has every linked vertex once, under its new number, with the weight of
    the link, and the vertex weights are those given. *)
Theorem C48_hypergraph : forall own WH t fuel parts gs ord,
  distributed own WH t parts -> build_parts true parts = Some gs -> (forall p, In p parts -> enough p fuel) -> (forall l, Permutation (ord l) l) ->
  parmetis_input false t fuel ord (starting gs) (fun dist csrs =>
    dist = first_numbers parts /\ length csrs = length parts /\
    forall r p c, nth_error parts r = Some p -> nth_error csrs r = Some c -> exists rows,
      is_csr rows c /\ c_vwgts c = ainit (full_vws (pi_verts p) (pi_vws p)) /\
      Forall2 (right_row (number parts) (linked WH) (link_weight WH)) (pi_verts p) rows).
Proof. intros. now apply hyper_graph with (own := own). Qed.

Lemma parmetis_mono isL t fuel ord sts (Q Q' : list Z -> list csr -> Prop) : (forall d c, Q d c -> Q' d c) -> parmetis_input isL t fuel ord sts Q -> parmetis_input isL t fuel ord sts Q'.
Proof. intros H. unfold parmetis_input. apply local_mono. intros st. apply phase_mono. intros c. apply H. Qed.

Lemma concat_split A (rows : list (list A)) i row : nth_error rows i = Some row -> concat rows = concat (firstn i rows) ++ row ++ concat (skipn (S i) rows).
Proof. revert rows. induction i as [|i IH]; intros [|a rows] H; cbn in H; try discriminate; [inversion H; reflexivity|]. cbn [concat firstn skipn]. rewrite (IH rows H), <- app_assoc. reflexivity. Qed.
Lemma concat_step A (rows : list (list A)) i row : nth_error rows i = Some row -> length (concat (firstn (i + 1) rows)) = length (concat (firstn i rows)) + length row.
Proof. revert rows. induction i as [|i IH]; intros [|a rows] H; cbn in H; try discriminate; [inversion H; subst; cbn; rewrite app_nil_r; lia|]. cbn [Nat.add concat firstn]. rewrite !app_length, (IH rows H). lia. Qed.
Lemma csr_entry rows c i b x : is_csr rows c ->
  (exists j lo hi, aget (c_xadj c) i = Some lo /\ aget (c_xadj c) (i + 1) = Some hi /\ (lo <= Z.of_nat j < hi)%Z /\ aget (c_adjncy c) j = Some b /\ aget (c_ewgts c) j = Some x)
  <-> exists row, nth_error rows i = Some row /\ In (b, x) row.
Proof.
  intros (E1 & E2 & E3). rewrite E1, E2, E3.
  assert (RS : forall k, k < length rows + 1 -> nth_error (row_starts rows) k = Some (Z.of_nat (length (concat (firstn k rows))))).
  { intros k Hk. unfold row_starts. rewrite nth_error_map, nth_error_seq by auto. reflexivity. }
  split.
  - intros (j & lo & hi & A & B & J & C & D). rewrite aget_ainit in A, B, C, D.
    assert (Li : i + 1 < length (row_starts rows)) by (apply nth_error_Some; congruence). unfold row_starts in Li. rewrite map_length, seq_length in Li.
    rewrite RS in A, B by lia. inversion A; subst lo. inversion B; subst hi. destruct (nth_error rows i) as [row|] eqn:Er; [|apply nth_error_None in Er; lia]. exists row. split; auto.
    rewrite (concat_step _ _ _ _ Er) in J. rewrite nth_error_map in C, D. rewrite (concat_split _ _ _ _ Er) in C, D. rewrite nth_error_app2 in C, D by lia. rewrite nth_error_app1 in C, D by lia.
    destruct (nth_error row (j - length (concat (firstn i rows)))) as [[b' x']|] eqn:E; [|discriminate]. cbn in C, D. inversion C; inversion D; subst. eapply nth_error_In; eauto.
  - intros (row & Er & Hin). apply In_nth_error in Hin as (k & Hk). assert (Lk : k < length row) by (apply nth_error_Some; congruence). assert (Li : i < length rows) by (apply nth_error_Some; congruence).
    exists (length (concat (firstn i rows)) + k). do 2 eexists. rewrite !aget_ainit, !RS by lia. split; [reflexivity|]. split; [reflexivity|]. rewrite (concat_step _ _ _ _ Er). split; [lia|].
    rewrite !nth_error_map. rewrite (concat_split _ _ _ _ Er). rewrite nth_error_app2 by lia. replace (_ + k - _) with k by lia. rewrite nth_error_app1 by auto. rewrite Hk. auto.
Qed.

(** The same in terms of the entries of the matrix: exactly one entry per ordered pair of linked vertices. *)
Theorem C48_entries : forall own WH t fuel parts gs ord,
  distributed own WH t parts -> build_parts true parts = Some gs -> (forall p, In p parts -> enough p fuel) -> (forall l, Permutation (ord l) l) ->
  parmetis_input false t fuel ord (starting gs) (fun dist csrs => forall a b x,
    entry dist csrs a b x <-> exists v w, a = number parts v /\ b = number parts w /\ linked WH v w /\ x = link_weight WH v w).
Proof.
  intros own WH t fuel parts gs ord HD HB HF Hord. eapply parmetis_mono; [|apply (C48_hypergraph own WH t fuel parts gs ord HD HB HF Hord)].
  intros dist csrs (-> & LC & HR) a b x. destruct (C48_numbering _ _ _ _ HD) as (NUM & _). unfold entry. split.
  - intros (r & c & d & i & j & lo & hi & Hc & Hd & -> & E). assert (Lr : r < length parts) by (rewrite <- LC; apply nth_error_Some; congruence).
    destruct (nth_error parts r) as [p|] eqn:Hp; [|apply nth_error_None in Hp; lia]. destruct (HR r p c Hp Hc) as (rows & CS & _ & F2).
    destruct (proj1 (csr_entry rows c i b x CS)) as (row & Er & Hin); [exists j, lo, hi; exact E|].
    destruct (Forall2_nth_r _ _ _ _ _ _ _ F2 Er) as (v & Hv & (l & _ & Hl & ->)). apply in_map_iff in Hin as (w & Ew & Hw). inversion Ew; subst.
    exists v, w. destruct (NUM r p i v Hp Hv) as (d' & Hd' & En). split; [congruence|]. split; auto. split; [apply Hl; auto|auto].
  - intros (v & w & -> & -> & HL & ->). destruct HL as (N & e & x' & He & Hv & Hw). destruct (proj1 HD e x' v He Hv) as (p & Hp & Iv).
    apply In_nth_error in Iv as (i & Hi). assert (Lr : own v < length csrs) by (rewrite LC; apply nth_error_Some; congruence). destruct (nth_error csrs (own v)) as [c|] eqn:Hc; [|apply nth_error_None in Hc; lia].
    destruct (HR _ p c Hp Hc) as (rows & CS & _ & F2). destruct (NUM _ p i v Hp Hi) as (d & Hd & En).
    destruct (Forall2_nth_l _ _ _ _ _ _ _ F2 Hi) as (row & Er & (l & _ & Hl & ->)).
    destruct (proj2 (csr_entry rows c i (number parts w) (link_weight WH v w) CS)) as (j & lo & hi & E).
    { eexists. split; [exact Er|]. apply in_map_iff. exists w. split; auto. apply Hl. split; auto. exists e, x'. auto. }
    exists (own v), c, d, i, j, lo, hi. auto.
Qed.

(** The matrix is symmetric and has no diagonal, as ParMETIS requires. *)
Theorem C48_symmetric : forall own WH t fuel parts gs ord,
  distributed own WH t parts -> build_parts true parts = Some gs -> (forall p, In p parts -> enough p fuel) -> (forall l, Permutation (ord l) l) ->
  parmetis_input false t fuel ord (starting gs) (fun dist csrs => forall a b x, entry dist csrs a b x -> entry dist csrs b a x /\ a <> b).
Proof.
  intros own WH t fuel parts gs ord HD HB HF Hord. eapply parmetis_mono; [|apply (C48_entries own WH t fuel parts gs ord HD HB HF Hord)].
  intros dist csrs HE a b x H. apply HE in H as (v & w & -> & -> & HL & ->). split.
  - apply HE. exists w, v. destruct HL as (N & e & x' & He & Hv & Hw). split; auto. split; auto. split; [split; auto; exists e, x'; auto|apply link_weight_sym].
  - destruct HL as (N & e & x' & He & Hv & Hw). intros E. apply N. destruct (C48_numbering _ _ _ _ HD) as (_ & INJ & _). destruct HD as (HP & _). apply INJ; auto; unfold all_vertices; apply in_concat.
    + destruct (HP e x' v He Hv) as (p & Hp & I). exists (pi_verts p). split; auto. apply in_map. eapply nth_error_In; eauto.
    + destruct (HP e x' w He Hw) as (p & Hp & I). exists (pi_verts p). split; auto. apply in_map. eapply nth_error_In; eauto.
Qed.

(* ------------------------------------------------------------------ *)
(** * One part alone (LOCAL_PARMETIS, engpar_split.cpp:38-49) *)
(** split() stores the rank in input->self and then switches to MPI_COMM_SELF, where every process has rank 0 *)
Definition alone (r : nat) (g : graph) : list pmpart := [mkPM (with_self g 0) (Z.of_nat r)].
Lemma build_self me me' hg verts vws tys owns g : build_part me hg verts vws tys owns = Some g -> build_part me' hg verts vws tys owns = Some (with_self g me').
Proof.
  unfold build_part. rewrite (graph_self me me'). destruct (build_graph me hg verts vws tys) as [g0|]; [|discriminate]. cbn [option_map obind]. unfold constructGhosts_owners. cbn [sw with_self ngv gunmap].
  match goal with |- obind ?x _ = _ -> _ => destruct x as [ow|]; [|discriminate] end. cbn [obind]. intros H. inversion H; subst. reflexivity.
Qed.

(** what LOCAL_PARMETIS computes on rank r, for any r *)
Lemma local_graph r p g t es ws fuel ord :
  valid_input true (pi_verts p) (pi_vws p) (pi_tys p) -> build_part (Z.of_nat r) true (pi_verts p) (pi_vws p) (pi_tys p) (pi_owns p) = Some g ->
  nth_error (pi_tys p) t = Some (es, ws) -> enough p fuel -> (forall l, Permutation (ord l) l) ->
  (forall w, In w (ghosts_of (pi_verts p) (pi_tys p)) -> part_of (Z.of_nat r) (pi_verts p) (pi_owns p) w <> Z.of_nat r) ->
  parmetis_input true t fuel ord (alone r g) (fun dist csrs => dist = [0%Z; Z.of_nat (length (pi_verts p))] /\
    exists c rows, csrs = [c] /\ is_csr rows c /\ c_vwgts c = ainit (full_vws (pi_verts p) (pi_vws p)) /\
      Forall2 (right_row (fun v => Z.of_nat (idx (pi_verts p) v)) (fun v w => r = 0 /\ In w (pi_verts p) /\ linked (combine es (full_ews es ws)) v w) (link_weight (combine es (full_ews es ws)))) (pi_verts p) rows).
Proof.
  intros V B Ht (F1 & F2) Hord Hgh. assert (InT : In (es, ws) (pi_tys p)) by (eapply nth_error_In; eauto). pose proof (pins_len _ _ _ InT) as PL.
  assert (Hw : ws = [] \/ length ws = length es) by (apply V; auto). pose proof (full_len es ws Hw) as FL.
  pose proof (build_self _ 0%Z _ _ _ _ _ _ B) as B0.
  assert (HV : view t fuel (with_self g 0) 0 (pi_verts p) (full_vws (pi_verts p) (pi_vws p)) (around es ws) (hnd (pi_verts p) (pi_tys p)) (part_of 0 (pi_verts p) (pi_owns p))).
  { apply view_hyper; auto.
    - intros v Hv. pose proof (incident_len v es). pose proof (around_fuel es v _ PL). split; nia.
    - intros e He. apply In_nth_error in He as (i & Hi). pose proof (pins_at_len es i) as X. unfold pins_at in X. rewrite Hi in X. nia. }
  assert (ED : vtxdist_of (alone r g) = [0%Z; Z.of_nat (length (pi_verts p))]).
  { unfold vtxdist_of, allreduce_sum, alone, vtxdist_share. cbn [length map Nat.add seq nth pm_g with_self self nlv]. rewrite <- (v_n _ _ _ _ _ _ _ _ _ HV). cbn [with_self nlv].
    unfold zsum. cbn. now rewrite Z.add_0_r. }
  unfold parmetis_input. rewrite ED. set (dist := [0%Z; Z.of_nat (length (pi_verts p))]).
  assert (PO : forall v w, In v (pi_verts p) -> In w (map fst (around es ws v)) -> (part_of 0 (pi_verts p) (pi_owns p) w = Z.of_nat r <-> r = 0 /\ In w (pi_verts p))).
  { intros v w Hv Hk. assert (Hn : ~ In w (pi_verts p) -> part_of (Z.of_nat r) (pi_verts p) (pi_owns p) w <> Z.of_nat r).
    { intros N. apply Hgh. apply around_keys in Hk as (_ & e & He & _ & Hwe).
      assert (In w (pi_verts p ++ ghosts_of (pi_verts p) (pi_tys p))) as X; [|apply in_app_iff in X; tauto].
      eapply (c_incl _ _ _ _ _ _ (p_constructed _ _ _ _ _ _ _ V B)); eauto. apply in_concat. exists (snd e). split; auto. now apply in_map. }
    unfold part_of in *. destruct (in_dec Z.eq_dec w (pi_verts p)) as [I|I]; [split; [intros; split; [lia|auto]|lia]|]. specialize (Hn I). split; [contradiction|tauto]. }
  destruct (pass1_ok _ _ _ _ _ _ _ _ _ HV true (Z.of_nat r) dist 0%Z ltac:(lia) eq_refl) as (p1 & E1 & G1 & G2 & G3).
  apply local_intro with (PB := fun _ sp => sp = (mkPM (with_self g 0) (Z.of_nat r), p1)).
  { intros i s Hs. destruct i as [|i]; [|destruct i; discriminate]. cbn in Hs. inversion Hs; subst s. rewrite E1. cbn [obind]. eauto. }
  intros sp Lsp Hsp.
  apply phase_intro with (PB := fun _ c => exists rows, is_csr rows c /\ c_vwgts c = ainit (full_vws (pi_verts p) (pi_vws p)) /\
      Forall2 (right_row (fun v => Z.of_nat (idx (pi_verts p) v)) (fun v w => r = 0 /\ In w (pi_verts p) /\ linked (combine es (full_ews es ws)) v w) (link_weight (combine es (full_ews es ws)))) (pi_verts p) rows).
  - intros i x Hx. rewrite (Hsp i x Hx). cbn [snd]. eexists. split; [reflexivity|]. intros m Hm. apply G3 in Hm as (X & _). discriminate.
  - intros sent rcv Es D i x arr Hx Harr. rewrite (Hsp i x Hx). cbn [fst snd].
    destruct (pass2_ok _ _ _ _ _ _ _ _ _ HV true (Z.of_nat r) 0%Z (fun v => Z.of_nat (idx (pi_verts p) v)) (ghost_numbers arr)) with (ord := ord) (p1 := p1) (arrived := arr) as (c & rows & Ec & CS & RW & VW); auto.
    { intros k v Hk. rewrite (nth_idx _ _ _ (v_nd _ _ _ _ _ _ _ _ _ HV) Hk). lia. }
    { intros v w Hv Hk E. apply (PO v w Hv Hk) in E. tauto. }
    { discriminate. }
    exists c. split; auto. exists rows. split; auto. split; auto. eapply F2_impl_in; [exact RW|]. intros v row Hv (l & P & ->). exists l.
    assert (IN : forall w, In w l <-> In w (map fst (around es ws v)) /\ r = 0 /\ In w (pi_verts p)).
    { intros w. split; intros H.
      - apply (Permutation_in _ P), in_nbs in H as (H & [X|X]); [discriminate|]. split; auto. apply (PO v w Hv H); auto.
      - eapply Permutation_in; [apply Permutation_sym, P|]. apply in_nbs. destruct H as (H & X). split; auto. right. apply (PO v w Hv H); auto. }
    split; [eapply Permutation_NoDup; [apply Permutation_sym, P|apply NoDup_nodup]|]. split.
    + intros w. rewrite IN, around_keys. unfold linked. split.
      * intros ((N & e & He & A & B') & R0 & I). split; auto. split; auto. split; auto. destruct (in_combine_at _ _ _ _ _ FL He) as (x' & Hx'). eauto.
      * intros (R0 & I & N & e & x' & He & A & B'). split; [|auto]. split; auto. exists e. apply in_combine_l in He. auto.
    + apply map_ext_in. intros w Hwl. f_equal. apply wgt_links; auto. apply IN in Hwl as (Hwl & _). apply around_keys in Hwl. tauto.
  - intros csrs LC HC. split; [reflexivity|]. destruct csrs as [|c [|c' csrs]]; cbn [length] in *; try (rewrite Lsp in LC; cbn in LC; discriminate LC). destruct (HC 0 c eq_refl) as (rows & X). exists c, rows. tauto.
Qed.

(** On the process of rank 0 the local partitioning gets the graph of the links between the vertices of the part. *)
Theorem C48_local : forall p g t es ws fuel ord,
  valid_input true (pi_verts p) (pi_vws p) (pi_tys p) -> build_part 0 true (pi_verts p) (pi_vws p) (pi_tys p) (pi_owns p) = Some g ->
  nth_error (pi_tys p) t = Some (es, ws) -> enough p fuel -> (forall l, Permutation (ord l) l) ->
  (forall w, In w (ghosts_of (pi_verts p) (pi_tys p)) -> part_of 0 (pi_verts p) (pi_owns p) w <> 0%Z) ->
  parmetis_input true t fuel ord (alone 0 g) (fun dist csrs => dist = [0%Z; Z.of_nat (length (pi_verts p))] /\
    exists c rows, csrs = [c] /\ is_csr rows c /\ c_vwgts c = ainit (full_vws (pi_verts p) (pi_vws p)) /\
      Forall2 (right_row (fun v => Z.of_nat (idx (pi_verts p) v)) (fun v w => In w (pi_verts p) /\ linked (combine es (full_ews es ws)) v w) (link_weight (combine es (full_ews es ws)))) (pi_verts p) rows).
Proof.
  intros p g t es ws fuel ord V B Ht HF Hord Hgh. eapply parmetis_mono; [|eapply (local_graph 0); eauto].
  intros d cs (-> & c & rows & -> & CS & VW & F2). split; auto. exists c, rows. split; auto. split; auto. split; auto.
  eapply F2_impl_in; [exact F2|]. intros v row _ (l & ND & Hl & ->). exists l. split; auto. split; auto. intros w. rewrite Hl. tauto.
Qed.

(** On every other process it gets a graph without edges, whatever the part looks like: owner() of a vertex of the part answers
    0 there (the rank on MPI_COMM_SELF), which is not input->self. *)
Theorem C48_local_refuted : forall r p g t es ws fuel ord, r <> 0 ->
  valid_input true (pi_verts p) (pi_vws p) (pi_tys p) -> build_part (Z.of_nat r) true (pi_verts p) (pi_vws p) (pi_tys p) (pi_owns p) = Some g ->
  nth_error (pi_tys p) t = Some (es, ws) -> enough p fuel -> (forall l, Permutation (ord l) l) ->
  (forall w, In w (ghosts_of (pi_verts p) (pi_tys p)) -> part_of (Z.of_nat r) (pi_verts p) (pi_owns p) w <> Z.of_nat r) ->
  parmetis_input true t fuel ord (alone r g) (fun dist csrs => exists c, csrs = [c] /\
    c_xadj c = ainit (repeat 0%Z (length (pi_verts p) + 1)) /\ c_adjncy c = [] /\ c_ewgts c = []).
Proof.
  intros r p g t es ws fuel ord Hr V B Ht HF Hord Hgh. eapply parmetis_mono; [|eapply (local_graph r); eauto].
  intros d cs (-> & c & rows & -> & (X1 & X2 & X3) & VW & F2). exists c. split; auto.
  assert (ER : rows = repeat [] (length (pi_verts p))).
  { clear - F2 Hr. revert F2. generalize (pi_verts p) at 3 4 as V. intros V F2. induction F2 as [|v row V rows R F2 IH]; [reflexivity|]. cbn [length repeat]. f_equal; auto.
    destruct R as (l & _ & Hl & ->). destruct l as [|w l]; [reflexivity|]. exfalso. apply Hr. apply (Hl w). left; auto. }
  subst rows. rewrite X1, X2, X3. clear. assert (C : forall k n, concat (firstn k (repeat (@nil (Z * Z)) n)) = []) by (induction k; intros [|n]; cbn; auto).
  assert (C' : forall n, concat (repeat (@nil (Z * Z)) n) = []) by (induction n; cbn; auto). rewrite C'. split; [|auto]. f_equal. unfold row_starts. rewrite repeat_length.
  generalize (length (pi_verts p) + 1) as m. intros m. rewrite (map_ext _ (fun _ => 0%Z)) by (intros k; now rewrite C). generalize 0 at 1. induction m; intros s; cbn; [auto|f_equal; auto].
Qed.

(* ------------------------------------------------------------------ *)
(** * The plan made from the answer *)
(** Every vertex of the part is in the plan, the i-th with the i-th entry of ParMETIS's answer as destination. *)
Theorem C48_plan : forall me hg verts vws tys g np fuel,
  constructed me hg verts vws tys g -> length verts < fuel -> length np = length verts -> (forall d, In d np -> d <> (-1)%Z) ->
  exists p, plan_of fuel g np = Some p /\ plan_size p = length verts /\
    forall i d, nth_error np i = Some d -> plan_has g p (getVertex i) = Some true /\ plan_get g p (getVertex i) = Some d.
Proof.
  intros me hg verts vws tys g np fuel HC Hf Ln Hd. destruct (c_counts _ _ _ _ _ _ HC) as (Nv & _).
  set (ops := map (fun i => Ins i (nth i np 0%Z)) (seq 0 (length verts))).
  assert (OPS : forall o, In o ops -> op_ok g o).
  { intros o Ho. apply in_map_iff in Ho as (i & <- & Hi). apply in_seq in Hi. cbn. split; [rewrite Nv; lia|]. apply Hd. apply nth_In. lia. }
  destruct (C15_plan _ _ _ _ _ _ ops fuel HC Hf OPS) as (p0 & p & E0 & E & SZ & SE & HAS & GET & _).
  assert (FG : forall i d, nth_error np i = Some d -> fm_get (fm_run ops) i = Some d).
  { intros i d Hi. rewrite planned_get. unfold ops, planned. assert (Li : i < length verts) by (rewrite <- Ln; apply nth_error_Some; congruence).
    assert (G : forall n acc, fold_left (fun acc o => match o with Ins k d => if k =? i then Some d else acc | Clr => None end) (map (fun i => Ins i (nth i np 0%Z)) (seq 0 n)) acc = if i <? n then Some (nth i np 0%Z) else acc).
    { induction n as [|n IH]; intros acc; [reflexivity|]. rewrite seq_S, map_app, fold_left_app, IH. cbn [map fold_left Nat.add]. destruct (Nat.eqb_spec n i) as [->|N].
      - destruct (Nat.ltb_spec i (S i)); [auto|lia]. - destruct (Nat.ltb_spec i n), (Nat.ltb_spec i (S n)); auto; lia. }
    rewrite G. destruct (Nat.ltb_spec i (length verts)); [|lia]. f_equal. now apply nth_error_nth. }
  exists p. split; [|split].
  - unfold plan_of. rewrite E0. cbn [obind]. rewrite (all_verts_ok _ _ _ _ _ (proj1 (constructed_rep _ _ _ _ _ _ HC)) fuel Hf). cbn [obind]. rewrite map_length, seq_length. rewrite <- E. unfold ops.
    assert (G : forall n a p1, a + n <= length np -> foldM (fun p ih => d <- nth_error np (fst ih) ;; '(p', _) <- plan_insert g p (snd ih) d ;; Some p') (combine (seq a n) (map S (seq a n))) p1 = foldM (do_op g) (map (fun i => Ins i (nth i np 0%Z)) (seq a n)) p1).
    { induction n as [|n IH]; intros a p1 L; [reflexivity|]. cbn [seq map combine foldM fst snd]. rewrite (nth_error_nth' np 0%Z) by lia. cbn [obind do_op]. unfold getVertex. rewrite Nat.add_1_r.
      destruct (plan_insert g p1 (S a) (nth a np 0%Z)) as [[p' b]|]; [|reflexivity]. cbn [obind fst]. apply IH. lia. }
    apply G. lia.
  - rewrite SZ. rewrite <- (map_length fst). assert (PM : Permutation (map fst (fm_run ops)) (seq 0 (length verts))).
    { apply NoDup_Permutation; [apply fm_run_nodup|apply seq_NoDup|]. intros i. rewrite in_seq. split.
      - intros Hi. apply in_map_iff in Hi as ([k d] & <- & Hk). cbn [fst].
        assert (fm_get (fm_run ops) k <> None) as N by (clear - Hk; induction (fm_run ops) as [|[a x] m IH]; [destruct Hk|]; cbn; destruct (Nat.eqb_spec a k); [discriminate|]; destruct Hk as [H|H]; [inversion H; congruence|auto]).
        destruct (fm_get (fm_run ops) k) as [d'|] eqn:Ek; [|congruence]. rewrite planned_get in Ek. apply planned_in in Ek. apply in_map_iff in Ek as (j & Ej & Hj). inversion Ej; subst. apply in_seq in Hj. lia.
      - intros Hi. destruct (nth_error np i) as [d|] eqn:En; [|apply nth_error_None in En; lia]. specialize (FG i d En). clear - FG. induction (fm_run ops) as [|[a x] m IH]; [discriminate|]. cbn in FG |- *. destruct (Nat.eqb_spec a i); auto. }
    rewrite (Permutation_length PM). apply seq_length.
  - intros i d Hi. split; [|apply GET, FG, Hi]. rewrite HAS; [now rewrite (FG i d Hi)|]. rewrite Nv, <- Ln. apply nth_error_Some. congruence.
Qed.

(* ------------------------------------------------------------------ *)
(** * Traditional graphs *)
(** An edge to a vertex of another part that has no edge back: that part never announces the number of the vertex, the map lookup
    default-inserts 0, and the neighbour is recorded as vertex number 0 (here: as the vertex itself) instead of 1. *)
Definition ex48_t0 := mkPart [10]%Z [] [([(1, [10;20])], [])]%Z [(20, 1)]%Z.
Definition ex48_t1 := mkPart [20]%Z [] [([], [])]%Z [].
Theorem C48_directed_refuted : exists gs c0 c1, build_parts false [ex48_t0; ex48_t1] = Some gs /\
  (forall r p, nth_error [ex48_t0; ex48_t1] r = Some p -> valid_input false (pi_verts p) (pi_vws p) (pi_tys p)) /\
  run_parmetis false 0 20 (fun l => l) (starting gs) = Some ([0; 1; 2]%Z, [c0; c1]) /\
  number [ex48_t0; ex48_t1] 20 = 1%Z /\ c_adjncy c0 = ainit [0%Z] /\ c_xadj c1 = ainit [0; 0]%Z.
Proof.
  eexists. eexists. eexists. split; [vm_compute; reflexivity|]. split.
  - intros r p Hr. destruct r as [|[|r]]; [| |destruct r; discriminate Hr]; inversion Hr; subst; cbn [pi_verts pi_vws pi_tys ex48_t0 ex48_t1]; (split; [repeat constructor; cbn; intuition congruence|]); (split; [cbn; lia|]); (split; [cbn; lia|]);
      intros es ws [H|[]]; inversion H; subst; (split; [auto|]); intros _ e He; [destruct He as [<-|[]]; reflexivity|destruct He].
  - split; [vm_compute; reflexivity|]. split; [vm_compute; reflexivity|]. split; vm_compute; reflexivity.
Qed.

(* ------------------------------------------------------------------ *)
(** * A case *)
Definition ex48_W : list (edge_input * Z) := [((1, [10;11;12]), 2); ((2, [12;13]), 3); ((3, [10;13]), 5)]%Z.
Definition ex48_own (v : Z) : nat := if (v <? 12)%Z then 0 else 1.
Definition ex48_p0 := mkPart [10;11]%Z [7]%Z [([(1, [10;11;12]); (3, [10;13])], [2;5])]%Z [(12, 1); (13, 1)]%Z.
Definition ex48_p1 := mkPart [13;12]%Z [] [([(3, [10;13]); (1, [10;11;12]); (2, [12;13])], [5;2;3])]%Z [(10, 0); (11, 0)]%Z.
Example C48_hyps : distributed ex48_own ex48_W 0 [ex48_p0; ex48_p1] /\ (forall p, In p [ex48_p0; ex48_p1] -> enough p 99) /\ exists gs, build_parts true [ex48_p0; ex48_p1] = Some gs.
Proof.
  split; [split|split].
  - intros e x v He Hv. cbn in He. destruct He as [He|[He|[He|[]]]]; inversion He; subst; cbn in Hv; repeat (destruct Hv as [<-|Hv]; [eexists; split; [reflexivity|cbn; tauto]|]); destruct Hv.
  - intros r p Hr. destruct r as [|[|r]]; [| |destruct r; discriminate Hr]; inversion Hr; subst; cbn [pi_verts pi_vws pi_tys pi_owns ex48_p0 ex48_p1].
    + split; [split; [repeat constructor; cbn; intuition congruence|split; [cbn; lia|split; [cbn; lia|]]]; intros es ws [H|[]]; inversion H; subst; split; [auto|discriminate]|].
      split; [intros v [<-|[<-|[]]]; reflexivity|]. do 2 eexists. split; [reflexivity|]. split; [cbn; reflexivity|].
      intros e v He Hv N. cbn in He. repeat (destruct He as [<-|He]; [cbn in Hv; repeat (destruct Hv as [<-|Hv]; [try reflexivity; exfalso; apply N; reflexivity|]); destruct Hv|]); destruct He.
    + split; [split; [repeat constructor; cbn; intuition congruence|split; [cbn; lia|split; [cbn; lia|]]]; intros es ws [H|[]]; inversion H; subst; split; [auto|discriminate]|].
      split; [intros v [<-|[<-|[]]]; reflexivity|]. do 2 eexists. split; [reflexivity|]. split.
      * cbn. apply perm_trans with (l' := [((1, [10;11;12]), 2); ((3, [10;13]), 5); ((2, [12;13]), 3)]%Z); constructor; try constructor.
      * intros e v He Hv N. cbn in He. repeat (destruct He as [<-|He]; [cbn in Hv; repeat (destruct Hv as [<-|Hv]; [try reflexivity; exfalso; apply N; reflexivity|]); destruct Hv|]); destruct He.
  - intros p [<-|[<-|[]]]; (split; [cbn; lia|]); cbn; lia.
  - eexists. vm_compute. reflexivity.
Qed.
Example C48_nontrivial : exists gs c0 c1, build_parts true [ex48_p0; ex48_p1] = Some gs /\
  run_parmetis false 0 99 (fun l => l) (starting gs) = Some ([0; 2; 4]%Z, [c0; c1]) /\
  c_xadj c0 = ainit [0; 3; 5]%Z /\ c_adjncy c0 = ainit [1; 3; 2; 0; 3]%Z /\ c_ewgts c0 = ainit [2; 2; 5; 2; 2]%Z /\ c_vwgts c0 = ainit [7; 1]%Z /\
  c_xadj c1 = ainit [0; 2; 5]%Z /\ c_adjncy c1 = ainit [0; 3; 0; 1; 2]%Z /\ c_ewgts c1 = ainit [5; 3; 2; 2; 3]%Z.
Proof.
  eexists. eexists. eexists. split; [vm_compute; reflexivity|]. split; [vm_compute; reflexivity|].
  split; [vm_compute; reflexivity|]. split; [vm_compute; reflexivity|]. split; [vm_compute; reflexivity|]. split; [vm_compute; reflexivity|]. split; [vm_compute; reflexivity|]. split; vm_compute; reflexivity.
Qed.
(** the part of rank 1 alone: no edges, although its vertices are linked *)
Example C48_local_nontrivial : exists gs g0 g1 c0 c1, build_parts true [ex48_p0; ex48_p1] = Some gs /\ gs = [g0; g1] /\
  run_parmetis true 0 99 (fun l => l) (alone 0 g0) = Some ([0; 2]%Z, [c0]) /\ c_xadj c0 = ainit [0; 1; 2]%Z /\ c_adjncy c0 = ainit [1; 0]%Z /\ c_ewgts c0 = ainit [2; 2]%Z /\
  run_parmetis true 0 99 (fun l => l) (alone 1 g1) = Some ([0; 2]%Z, [c1]) /\ c_xadj c1 = ainit [0; 0; 0]%Z /\
  linked (combine (fst (nth 0 (pi_tys ex48_p1) ([], []))) [5;2;3]%Z) 12 13.
Proof.
  eexists. eexists. eexists. eexists. eexists. split; [vm_compute; reflexivity|]. split; [reflexivity|]. split; [vm_compute; reflexivity|].
  split; [vm_compute; reflexivity|]. split; [vm_compute; reflexivity|]. split; [vm_compute; reflexivity|]. split; [vm_compute; reflexivity|]. split; [vm_compute; reflexivity|].
  split; [lia|]. exists (2, [12;13])%Z, 3%Z. cbn. auto.
Qed.
Example C48_plan_nontrivial : (gs <- build_parts true [ex48_p0; ex48_p1] ;; g <- nth_error gs 0 ;; p <- plan_of 99 g [1;0]%Z ;; Some (pl_sending p, plan_get g p 1, plan_get g p 2)) = Some ([1;2], Some 1%Z, Some 0%Z).
Proof. vm_compute. reflexivity. Qed.

Print Assumptions C48_numbering.
Print Assumptions C48_hypergraph.
Print Assumptions C48_entries.
Print Assumptions C48_symmetric.
Print Assumptions C48_local.
Print Assumptions C48_local_refuted.
Print Assumptions C48_plan.
Print Assumptions C48_directed_refuted.
