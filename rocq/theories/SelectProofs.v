(** Selection of cavities: select on one part. *)
From Verif Require Import Base GraphModel TagModel TagProps MetricsModel MetricsProofs QueueModel QueueProps MigrateModel SidesProofs SelectorModel SelectorProofs.
From Coq Require Import Lqa.
Local Open Scope nat_scope.

Lemma fm_get_in m l : fm_get m l <> None <-> In l (map fst m).
Proof. induction m as [|(k, d) m IH]; cbn [fm_get map In fst]; [tauto|]. destruct (Nat.eqb_spec k l) as [->|N]; [split; [auto|discriminate]|]. rewrite IH. split; [auto|intros [E|H]; [congruence|auto]]. Qed.

Lemma qperm l l' : Permutation l l' -> (qsum l == qsum l')%Q.
Proof. intros P. induction P; cbn [qsum]; [reflexivity|rewrite IHP; reflexivity|ring|etransitivity; eauto]. Qed.

Section Sel.
Variables (val : Z -> Q) (g : graph) (gw : option (arr Z)) (fuel : nat) (ord : list nat -> list nat) (pord : list (Z * list nat) -> list (Z * list nat)).
Variables (il : nat -> nat -> list nat) (pn : nat -> list nat) (ow : nat -> Z) (res : nat -> Z -> bool) (ew vw : nat -> Q) (loc tok eok : nat -> Prop).
Hypothesis H_il : forall h t, loc h -> tok t -> vertex_edges g h t fuel = Some (il t h).
Hypothesis H_res : forall h t e d, loc h -> tok t -> In e (il t h) -> isResidentOn g e d = Some (res e d).
Hypothesis H_ew : forall h t e, loc h -> tok t -> In e (il t h) -> exists x, eweight g e = Some x /\ val x = ew e.
Hypothesis H_vw : forall h, loc h -> weight_of val g gw h = Some (vw h).
Hypothesis H_loc : forall h, loc h <-> exists l, l < nlv g /\ h = getVertex l.
Hypothesis H_tok : tok 0.
Hypothesis H_eok : forall h e, loc h -> In e (il 0 h) -> eok e.
Hypothesis H_pn : forall e, eok e -> edge_pins g e fuel = Some (pn e).
Hypothesis H_ow : forall e v, eok e -> In v (pn e) -> owner g v = Some (ow v).
Hypothesis H_mine : forall e v, eok e -> In v (pn e) -> ow v = self g -> loc v.
Hypothesis H_ord : forall c, Permutation (ord c) c.

(** the vertices of the part on the edge *)
Definition cavity_of (e : nat) : list nat := addall [] (filter (fun v => Z.eqb (ow v) (self g)) (pn e)).
Lemma cavity_in e v : In v (cavity_of e) <-> In v (pn e) /\ ow v = self g.
Proof. unfold cavity_of. rewrite addall_in, filter_In, Z.eqb_eq. cbn. tauto. Qed.
Lemma cavity_loc e v : eok e -> In v (cavity_of e) -> loc v.
Proof. intros He Hv. apply cavity_in in Hv as (A & B). eauto. Qed.
Lemma getCavity_ok e : eok e -> getCavity g fuel e = Some (cavity_of e).
Proof.
  intros He. unfold getCavity. rewrite (H_pn e He). cbn [obind]. unfold cavity_of. assert (HO := fun v => H_ow e v He). revert HO. generalize (@nil nat) at 1 2. generalize (pn e). clear. induction l as [|v l IH]; intros s HO; cbn [foldM filter]; [reflexivity|].
  rewrite (HO v (or_introl eq_refl)). cbn [obind]. rewrite IH by (intros; apply HO; right; auto). destruct (Z.eqb (ow v) (self g)); reflexivity.
Qed.

(** plans *)
Definition plan_ok (plan : mplan) : Prop := exists m, PInv g plan m.
Lemma sending_in plan m l : PInv g plan m -> (fm_get m l <> None <-> In (getVertex l) (pl_sending plan)).
Proof.
  intros (_ & S & _). rewrite S, fm_get_in, !in_map_iff. split; intros (e & E & He); exists e; (split; [|exact He]).
  - now rewrite E.
  - unfold getVertex in E. lia.
Qed.
Lemma plan_has_ok plan h : plan_ok plan -> loc h -> plan_has g plan h = Some (smem (pl_sending plan) h) /\ exists d, plan_get g plan h = Some d.
Proof.
  intros (m & HI) Hh. apply H_loc in Hh as (l & Hl & ->). rewrite (inv_has g plan m l HI Hl). split.
  - f_equal. pose proof (sending_in plan m l HI) as S. destruct (fm_get m l) as [d|].
    + symmetry. apply smem_in, S. discriminate.
    + symmetry. apply smem_no. intros I. apply S in I. congruence.
  - destruct HI as (_ & _ & _ & _ & A). unfold plan_get. rewrite get_vtag_local by auto. rewrite A by auto. eauto.
Qed.
Lemma plan_insert_ok plan h d : plan_ok plan -> loc h -> d <> (-1)%Z -> exists plan', plan_insert g plan h d = Some (plan', negb (smem (pl_sending plan) h)) /\ plan_ok plan' /\ pl_sending plan' = sadd (pl_sending plan) h.
Proof.
  intros HP Hh Hd. destruct (plan_has_ok plan h HP Hh) as (E & _). destruct HP as (m & HI). pose proof Hh as Hh'. apply H_loc in Hh' as (l & Hl & ->). destruct (inv_insert g plan m l d HI Hl Hd) as (p' & Ei & HI').
  exists p'. unfold plan_insert in Ei |- *. rewrite E in Ei |- *. cbn [obind] in Ei |- *. unfold sadd. destruct (smem (pl_sending plan) (getVertex l)) eqn:Em.
  - destruct (set_vtag (pl_dest plan) (getVertex l) d) as [tag|]; [|discriminate]. cbn [obind] in Ei |- *. inversion Ei; subst p'. cbn [negb pl_sending]. split; auto. split; [eexists; eauto|auto].
  - destruct (set_vtag (pl_dest plan) (getVertex l) d) as [tag|]; [|discriminate]. cbn [obind] in Ei |- *. inversion Ei; subst p'. cbn [negb pl_sending]. split; auto. split; [eexists; eauto|auto].
Qed.
Definition lid_of (h : nat) : nat := h - 1.
Definition ins_all (c : list nat) (d : Z) : list plan_op := map (fun h => Ins (lid_of h) d) c.

(** what addCavity adds to the plan: the vertices that were not planned yet *)
Definition fresh (s c : list nat) : list nat := addall [] (filter (fun x => negb (smem s x)) c).
Lemma fresh_split s c : addall s c = s ++ fresh s c. Proof. apply addall_split. Qed.
Lemma fresh_in s c x : In x (fresh s c) <-> In x c /\ ~ In x s.
Proof. unfold fresh. rewrite addall_in, filter_In, negb_true_iff, smem_no. cbn. tauto. Qed.
Lemma fresh_nodup s c : NoDup (fresh s c). Proof. apply addall_nodup. constructor. Qed.
Lemma fresh_length s c : length (fresh s c) <= length c.
Proof. apply NoDup_incl_length; [apply fresh_nodup|]. intros x Hx. now apply fresh_in in Hx. Qed.
(** the weight addCavity returns for them *)
Definition edges_of (t : nat) (vs : list nat) : list nat := addall [] (flat_map (il t) vs).
Definition gain (dim : option nat) (d : Z) (vs : list nat) : Q :=
  match dim with None => qsum (map vw vs) | Some t => qsum (map ew (filter (fun e => negb (res e d)) (edges_of t vs))) end.
Lemma add_loop dim peer : peer <> (-1)%Z -> match dim with Some t => tok t | None => True end -> forall c plan w tes, (forall v, In v c -> loc v) -> plan_ok plan ->
  exists plan' w', foldM (fun '(plan, w, tes) v =>
     '(plan', fresh) <- plan_insert g plan v peer ;;
     if fresh then
       match dim with
       | None => x <- weight_of val g gw v ;; Some (plan', (w + x)%Q, tes)
       | Some t => es <- vertex_edges g v t fuel ;; Some (plan', w, fold_left sadd es tes)
       end
     else Some (plan', w, tes)) c (plan, w, tes) = Some (plan', w', match dim with Some t => addall tes (flat_map (il t) (fresh (pl_sending plan) c)) | None => tes end) /\
    plan_ok plan' /\ pl_sending plan' = addall (pl_sending plan) c /\ foldM (do_op g) (ins_all c peer) plan = Some plan' /\
    (w' == w + match dim with None => qsum (map vw (fresh (pl_sending plan) c)) | Some _ => 0 end)%Q.
Proof.
  intros Hd Ht. induction c as [|v c IH]; intros plan w tes HL HP; cbn [foldM].
  - exists plan, w. split; [destruct dim; reflexivity|]. split; auto. split; auto. split; auto. destruct dim; cbn; ring.
  - destruct (plan_insert_ok plan v peer HP (HL v (or_introl eq_refl)) Hd) as (p1 & E1 & HP1 & S1). rewrite E1. cbn [obind].
    assert (FR : fresh (pl_sending plan) (v :: c) = if smem (pl_sending plan) v then fresh (pl_sending plan) c else v :: fresh (pl_sending p1) c).
    { assert (A := fresh_split (pl_sending plan) (v :: c)). change (addall (pl_sending plan) (v :: c)) with (addall (sadd (pl_sending plan) v) c) in A. rewrite <- S1 in A. rewrite fresh_split in A. rewrite S1 in A at 1. unfold sadd in A. destruct (smem (pl_sending plan) v) eqn:Em.
      - apply app_inv_head in A. rewrite <- A. f_equal. rewrite S1. unfold sadd. now rewrite Em.
      - rewrite <- app_assoc in A. apply app_inv_head in A. now rewrite <- A. }
    assert (DO : forall p', foldM (do_op g) (ins_all c peer) p1 = Some p' -> foldM (do_op g) (ins_all (v :: c) peer) plan = Some p').
    { intros p' H. cbn [ins_all map foldM do_op]. assert (V : getVertex (lid_of v) = v). { destruct (proj1 (H_loc v) (HL v (or_introl eq_refl))) as (l & _ & ->). unfold lid_of, getVertex. lia. } rewrite V, E1. cbn [obind]. exact H. }
    destruct (smem (pl_sending plan) v) eqn:Em; cbn [negb].
    + destruct (IH p1 w tes ltac:(intros; apply HL; right; auto) HP1) as (p' & w' & E & A & B & C & D). exists p', w'. assert (S2 : pl_sending p1 = pl_sending plan) by (rewrite S1; unfold sadd; now rewrite Em). rewrite S2 in E, B, D. rewrite FR. split; [exact E|]. split; auto. split; [rewrite B; cbn [addall fold_left]; unfold sadd at 2; now rewrite Em|]. split; auto.
    + destruct dim as [t|].
      * rewrite (H_il v t (HL v (or_introl eq_refl)) Ht). cbn [obind]. destruct (IH p1 w (fold_left sadd (il t v) tes) ltac:(intros; apply HL; right; auto) HP1) as (p' & w' & E & A & B & C & D). exists p', w'. rewrite FR. split; [rewrite E; f_equal; f_equal; cbn [flat_map]; now rewrite addall_app|]. split; auto. split; [rewrite B, S1; reflexivity|]. split; auto.
      * rewrite (H_vw v (HL v (or_introl eq_refl))). cbn [obind]. destruct (IH p1 (w + vw v)%Q tes ltac:(intros; apply HL; right; auto) HP1) as (p' & w' & E & A & B & C & D). exists p', w'. rewrite FR. split; [exact E|]. split; auto. split; [rewrite B, S1; reflexivity|]. split; auto. rewrite D. cbn [map qsum]. ring.
Qed.
Lemma addCavity_ok dim peer c plan : peer <> (-1)%Z -> match dim with Some t => tok t | None => True end -> (forall v, In v c -> loc v) -> plan_ok plan ->
  exists plan' w vs, addCavity val ord g gw fuel c peer plan dim = Some (plan', w) /\ plan_ok plan' /\ pl_sending plan' = pl_sending plan ++ vs /\ NoDup vs /\ (forall v, In v vs -> In v c /\ ~ In v (pl_sending plan)) /\ length vs <= length c /\
    foldM (do_op g) (ins_all (ord c) peer) plan = Some plan' /\ (w == gain dim peer vs)%Q /\ (forall v, In v c -> In v (pl_sending plan')) /\ (forall v, In v (pl_sending plan) -> In v (pl_sending plan')).
Proof.
  intros Hd Ht HL HP. assert (HL' : forall v, In v (ord c) -> loc v) by (intros v Hv; apply HL; eapply Permutation_in; [apply H_ord|exact Hv]).
  destruct (add_loop dim peer Hd Ht (ord c) plan 0%Q [] HL' HP) as (p' & w' & E & A & B & C & D). unfold addCavity. rewrite E. cbn [obind].
  set (vs := fresh (pl_sending plan) (ord c)) in *. assert (LV : forall v, In v vs -> loc v) by (intros v Hv; apply HL'; now apply fresh_in in Hv).
  assert (G : forall tes w, (forall e, In e tes -> exists h t, loc h /\ tok t /\ In e (il t h)) -> exists w2, foldM (fun w e => r <- isResidentOn g e peer ;; if r then Some w else x <- eweight g e ;; Some (w + val x)%Q) tes w = Some w2 /\ (w2 == w + qsum (map ew (filter (fun e => negb (res e peer)) tes)))%Q).
  { clear - H_res H_ew. induction tes as [|e tes IH]; intros w HE; cbn [foldM filter]; [exists w; split; auto; cbn; ring|]. destruct (HE e (or_introl eq_refl)) as (h & t & Hh & Ht & He). rewrite (H_res h t e peer Hh Ht He). cbn [obind]. destruct (res e peer); cbn [negb].
    - apply IH. intros; apply HE; right; auto.
    - destruct (H_ew h t e Hh Ht He) as (x & -> & Ex). cbn [obind]. destruct (IH (w + val x)%Q ltac:(intros; apply HE; right; auto)) as (w2 & E2 & W2). exists w2. split; auto. rewrite W2, Ex. cbn [map qsum]. ring. }
  assert (FIN : exists w2, foldM (fun w e => r <- isResidentOn g e peer ;; if r then Some w else x <- eweight g e ;; Some (w + val x)%Q) (match dim with Some t => addall [] (flat_map (il t) vs) | None => [] end) w' = Some w2 /\ (w2 == gain dim peer vs)%Q).
  { destruct dim as [t|]; cbn [gain].
    - destruct (G (addall [] (flat_map (il t) vs)) w') as (w2 & E2 & W2). { intros e He. apply addall_in in He as [[]|He]. apply in_flat_map in He as (v & Hv & He). exists v, t. auto. } exists w2. split; auto. rewrite W2, D. unfold edges_of. ring.
    - cbn [foldM]. exists w'. split; auto. rewrite D. unfold vs. ring. }
  destruct FIN as (w2 & E2 & W2). rewrite E2. cbn [obind]. exists p', w2, vs. split; auto. split; auto. split; [rewrite B; apply fresh_split|]. split; [apply fresh_nodup|]. split.
  { intros v Hv. apply fresh_in in Hv as (I & N). split; auto. eapply Permutation_in; [apply H_ord|exact I]. }
  split; [unfold vs; rewrite fresh_length; rewrite (Permutation_length (H_ord c)); auto|]. split; auto. split; auto. split; intros v Hv; rewrite B; apply addall_in; [right; eapply Permutation_in; [apply Permutation_sym, H_ord|exact Hv]|auto].
Qed.

(** getCavityPeers, edgeCutGrowth are defined *)
Lemma cavity_edges_ok c : (forall v, In v c -> loc v) -> exists es, cavity_edges ord g fuel c = Some es /\ forall e, In e es -> eok e.
Proof.
  intros HL. unfold cavity_edges. assert (HL' : forall v, In v (ord c) -> loc v) by (intros v Hv; apply HL; eapply Permutation_in; [apply H_ord|exact Hv]).
  assert (G : forall c s, (forall v, In v c -> loc v) -> (forall e, In e s -> eok e) -> exists es, foldM (fun s v => es <- vertex_edges g v 0 fuel ;; Some (fold_left sadd es s)) c s = Some es /\ forall e, In e es -> eok e).
  { clear HL HL' c. induction c as [|v c IH]; intros s HL Hs; cbn [foldM]; [eauto|]. rewrite (H_il v 0 (HL v (or_introl eq_refl)) H_tok). cbn [obind]. apply IH; [intros; apply HL; right; auto|]. intros e He. change (In e (addall s (il 0 v))) in He. apply addall_in in He as [He|He]; [auto|]. eapply H_eok; [|exact He]. apply HL. left; auto. }
  apply G; auto. intros e [].
Qed.
Lemma peers_ok plan c : plan_ok plan -> (forall v, In v c -> loc v) -> exists peers, getCavityPeers ord pord g fuel plan c = Some peers.
Proof.
  intros HP HL. unfold getCavityPeers. destruct (cavity_edges_ok c HL) as (es & E & He). rewrite E. cbn [obind].
  assert (G : forall es m, (forall e, In e es -> eok e) -> exists m', foldM (peer_edge g fuel plan) es m = Some m').
  { clear - HP H_pn H_ow H_mine H_loc H_ord H_tok. induction es as [|e es IH]; intros m HE; cbn [foldM]; [eauto|]. unfold peer_edge at 1. assert (Hk : eok e) by (apply HE; left; auto). rewrite (H_pn e Hk). cbn [obind].
    assert (P : forall ps m, (forall v, In v ps -> In v (pn e)) -> exists m', foldM (fun m v => o <- owner g v ;; if negb (Z.eqb o (self g)) then Some (peer_add m o e) else b <- plan_has g plan v ;; if b then d <- plan_get g plan v ;; Some (peer_add m d e) else Some m) ps m = Some m').
    { induction ps as [|v ps IHp]; intros m0 Hv; cbn [foldM]; [eauto|]. assert (Iv : In v (pn e)) by (apply Hv; left; auto). rewrite (H_ow e v Hk Iv). cbn [obind]. destruct (Z.eqb_spec (ow v) (self g)) as [Eo|]; cbn [negb].
      - destruct (plan_has_ok plan v HP (H_mine e v Hk Iv Eo)) as (Eh & d & Eg). rewrite Eh. cbn [obind]. destruct (smem (pl_sending plan) v); [rewrite Eg|]; cbn [obind]; apply IHp; intros; apply Hv; right; auto.
      - cbn [obind]. apply IHp. intros; apply Hv; right; auto. }
    destruct (P (pn e) m ltac:(auto)) as (m' & Em). rewrite Em. cbn [obind]. apply IH. intros; apply HE; right; auto. }
  destruct (G es [] He) as (m' & Em). rewrite Em. cbn [obind]. eauto.
Qed.
Lemma growth_ok c peer limit : (forall v, In v c -> loc v) -> exists b, edge_growth_ok ord g fuel c peer limit = Some b.
Proof.
  intros HL. unfold edge_growth_ok. assert (HL' : forall v, In v (ord c) -> loc v) by (intros v Hv; apply HL; eapply Permutation_in; [apply H_ord|exact Hv]).
  assert (G : forall c s, (forall v, In v c -> loc v) -> exists s', foldM (fun s v => es <- vertex_edges g v 0 fuel ;; foldM (fun '(cut, uncut) e => r <- isResidentOn g e peer ;; Some (if r : bool then (cut + 1, uncut) else (cut, uncut + 1))) es s) c s = Some s').
  { clear - H_il H_res H_tok. induction c as [|v c IH]; intros s HL; cbn [foldM]; [eauto|]. assert (Lv := HL v (or_introl eq_refl)). rewrite (H_il v 0 Lv H_tok). cbn [obind].
    assert (P : forall es s, (forall e, In e es -> In e (il 0 v)) -> exists s', foldM (fun '(cut, uncut) e => r <- isResidentOn g e peer ;; Some (if r : bool then (cut + 1, uncut) else (cut, uncut + 1))) es s = Some s').
    { induction es as [|e es IHe]; intros [a b] HE; cbn [foldM]; [eauto|]. rewrite (H_res v 0 e peer Lv H_tok (HE e (or_introl eq_refl))). cbn [obind]. apply IHe. intros; apply HE; right; auto. }
    destruct (P (il 0 v) s ltac:(auto)) as (s' & ->). cbn [obind]. apply IH. intros; apply HL; right; auto. }
  destruct (G (ord c) (0, 0) HL') as ((a & b) & ->). cbn [obind]. eauto.
Qed.

(** ** select *)
Variables (targets : cont Q) (limit : Q) (dim : option nat) (B : Q) (p0 : mplan) (es : list nat).
Hypothesis H_tgt : forall d, chas targets d = true -> d <> (-1)%Z.
Hypothesis H_dim : match dim with Some t => tok t | None => True end.
Hypothesis H_es : forall e, In e es -> eok e.
Hypothesis H_p0 : plan_ok p0.
Hypothesis H_empty : pl_sending p0 = [].
(** what less than twelve vertices can add *)
Hypothesis H_B : forall d vs, NoDup vs -> length vs <= 11 -> (forall v, In v vs -> loc v) -> (0 <= gain dim d vs <= B)%Q.

(** the weights added, in total and to one part; A lists every addition: the part and the vertices that were new in the plan *)
Definition added (A : list (Z * list nat)) : Q := qsum (map (fun a => gain dim (fst a) (snd a)) A).
Definition added_to (A : list (Z * list nat)) (d : Z) : Q := added (filter (fun a => Z.eqb (fst a) d) A).
(** the part a vertex was first planned for *)
Fixpoint first_call (cs : list plan_op) (l : nat) : option Z :=
  match cs with [] => None | Ins k d :: r => if k =? l then Some d else first_call r l | Clr :: r => first_call r l end.
Lemma first_app cs cs' l : first_call (cs ++ cs') l = match first_call cs l with Some d => Some d | None => first_call cs' l end.
Proof. induction cs as [|[k d|] cs IH]; cbn [app first_call]; [reflexivity| |exact IH]. destruct (k =? l); [reflexivity|exact IH]. Qed.
Lemma first_ins c d l : first_call (ins_all c d) l <> None -> exists v, In v c /\ lid_of v = l.
Proof. induction c as [|v c IH]; cbn [ins_all map first_call]; [congruence|]. destruct (Nat.eqb_spec (lid_of v) l); [intros _; exists v; split; [left|]; auto|]. intros H. destruct (IH H) as (u & Hu & E). exists u. split; [right|]; auto. Qed.
Lemma first_ins_in c d v : In v c -> first_call (ins_all c d) (lid_of v) = Some d.
Proof. induction c as [|u c IH]; intros H; [destruct H|]. cbn [ins_all map first_call]. destruct (Nat.eqb_spec (lid_of u) (lid_of v)) as [|N]; [reflexivity|]. destruct H as [->|H]; [congruence|]. now apply IH. Qed.
(** the calls made on the plan *)
Definition good_call (o : plan_op) : Prop := exists e v d, o = Ins (lid_of v) d /\ In e es /\ In v (cavity_of e) /\ chas targets d = true.
Definition good_add (a : Z * list nat) : Prop := chas targets (fst a) = true /\ length (snd a) <= 11 /\ forall v, In v (snd a) -> exists e, In e es /\ In v (cavity_of e).
Definition log_ok (A : list (Z * list nat)) (cs : list plan_op) (sending : zmap Q) (plan : mplan) (w : Q) : Prop :=
  plan_ok plan /\ foldM (do_op g) cs p0 = Some plan /\ (forall o, In o cs -> good_call o) /\
  flat_map snd A = pl_sending plan /\ NoDup (pl_sending plan) /\ (forall a, In a A -> good_add a) /\
  (w == added A)%Q /\ (forall d, at_wgt sending d == added_to A d)%Q /\
  (A = [] \/ (added A <= c_total targets + B)%Q) /\ (forall d, filter (fun a => Z.eqb (fst a) d) A = [] \/ (added_to A d <= cget 0%Q targets d + B)%Q) /\
  (forall a v, In a A -> In v (snd a) -> first_call cs (lid_of v) = Some (fst a)) /\ (forall l, first_call cs l <> None -> In (getVertex l) (pl_sending plan)).
Lemma log_start : log_ok [] [] [] p0 0%Q.
Proof. split; auto. split; auto. split; [intros ? []|]. split; [rewrite H_empty; auto|]. split; [rewrite H_empty; constructor|]. split; [intros ? []|]. split; [reflexivity|]. split; [intros; reflexivity|]. split; [auto|]. split; [auto|]. split; [intros ? ? []|]. intros l H. cbn in H. congruence. Qed.
Lemma added_app A A' : (added (A ++ A') == added A + added A')%Q.
Proof. unfold added. induction A as [|a A IH]; cbn [app map qsum]; [ring|]. rewrite IH. ring. Qed.
Lemma try_ok e cav : In e es -> (forall v, In v cav -> In v (cavity_of e)) -> length cav <= 11 -> forall peers st A cs, log_ok A cs (s_sending st) (s_plan st) (s_w st) -> (s_w st <= c_total targets)%Q ->
  exists st' sent A' cs', try_peers val ord g gw fuel targets limit dim cav peers st = Some (st', sent) /\ log_ok (A ++ A') (cs ++ cs') (s_sending st') (s_plan st') (s_w st') /\ s_q st' = s_q st /\ s_cav st' = s_cav st.
Proof.
  intros He HC HL. assert (LC : forall v, In v cav -> loc v) by (intros v Hv; eapply cavity_loc; [apply H_es; exact He|auto]).
  induction peers as [|p peers IH]; intros st A cs HI Hw; cbn [try_peers].
  - exists st, false, [], []. rewrite !app_nil_r. auto.
  - assert (G : exists b, (if Qle_bool limit 0 then Some true else edge_growth_ok ord g fuel cav p limit) = Some b). { destruct (Qle_bool limit 0); [eauto|]. now apply growth_ok. }
    destruct G as (b & ->). cbn [obind]. destruct (chas targets p) eqn:Ht; cbn [andb]; [|apply IH; auto]. destruct (Qle_bool (cget 0%Q targets p) (at_wgt (s_sending st) p)) eqn:Hf; cbn [negb andb]; [apply IH; auto|]. destruct b; [|apply IH; auto].
    destruct HI as (HP & HR & HG & HS & HN & HA & HW & HT & HT1 & HT2 & HF1 & HF2).
    destruct (addCavity_ok dim p cav (s_plan st) (H_tgt p Ht) H_dim LC HP) as (plan' & w & vs & E & P' & S' & N' & I' & L' & R' & W' & J1' & J2'). rewrite E. cbn [obind].
    exists (mkSel (s_q st) (s_cav st) (zput (s_sending st) p (at_wgt (s_sending st) p + w)%Q) plan' (s_w st + w)%Q), true, [(p, vs)], (ins_all (ord cav) p). split; [reflexivity|]. split; [|auto]. cbn [s_sending s_plan s_w].
    assert (GB : (0 <= gain dim p vs <= B)%Q) by (apply H_B; auto; [lia|intros v Hv; apply LC, (I' v Hv)]).
    assert (AT : forall d, (added_to (A ++ [(p, vs)]) d == added_to A d + if Z.eqb p d then gain dim p vs else 0)%Q).
    { intros d. unfold added_to. rewrite filter_app, added_app. cbn [filter fst]. destruct (Z.eqb p d); unfold added; cbn [map qsum fst snd]; ring. }
    split; [exact P'|]. split; [rewrite foldM_app, HR; cbn [obind]; exact R'|]. split.
    { intros o Ho. apply in_app_iff in Ho as [Ho|Ho]; auto. apply in_map_iff in Ho as (v & <- & Hv). exists e, v, p. split; auto. split; auto. split; auto. apply HC. eapply Permutation_in; [apply H_ord|exact Hv]. }
    split; [rewrite flat_map_app, HS, S'; cbn [flat_map snd]; now rewrite app_nil_r|]. split.
    { rewrite S'. apply NoDup_app_iff. split; auto. split; auto. intros x Hx Hy. now apply I' in Hy. }
    split. { intros a Ha. apply in_app_iff in Ha as [Ha|[<-|[]]]; auto. split; auto. split; [cbn; lia|]. cbn [snd]. intros v Hv. exists e. split; auto. apply HC, (I' v Hv). }
    split; [rewrite added_app, HW, W'; unfold added; cbn [map qsum fst snd]; ring|]. split.
    { intros d. rewrite AT. unfold at_wgt at 1. rewrite zfind_zput. destruct (Z.eqb_spec p d) as [->|].
      - rewrite HT, W'. reflexivity.
      - change (at_wgt (s_sending st) d == added_to A d + 0)%Q. rewrite HT. ring. }
    split. { right. rewrite added_app, <- HW. unfold added. cbn [map qsum fst snd]. lra. }
    assert (UN : forall v, In v vs -> first_call cs (lid_of v) = None).
    { intros v Hv. destruct (first_call cs (lid_of v)) eqn:EF; auto. exfalso. apply (proj2 (I' v Hv)). assert (V : getVertex (lid_of v) = v). { destruct (proj1 (H_loc v) (LC v (proj1 (I' v Hv)))) as (l & _ & ->). unfold lid_of, getVertex. lia. } rewrite <- V. apply HF2. congruence. }
    split; [|split].
    2: { intros a v Ha Hv. rewrite first_app. apply in_app_iff in Ha as [Ha|[<-|[]]]; [now rewrite (HF1 a v Ha Hv)|]. cbn [fst snd] in *. rewrite (UN v Hv). apply first_ins_in. eapply Permutation_in; [apply Permutation_sym, H_ord|]. apply (I' v Hv). }
    2: { intros l Hl. rewrite first_app in Hl. destruct (first_call cs l) eqn:EF; [apply J2', HF2; congruence|]. apply first_ins in Hl as (v & Hv & <-). assert (Hc : In v cav) by (eapply Permutation_in; [apply H_ord|exact Hv]). destruct (proj1 (H_loc v) (LC v Hc)) as (l & _ & ->). replace (getVertex (lid_of (getVertex l))) with (getVertex l) by (unfold lid_of, getVertex; lia). now apply J1'. }
    intros d. destruct (Z.eqb_spec p d) as [->|Np].
    + right. rewrite AT, Z.eqb_refl, <- HT. assert (~ (cget 0%Q targets d <= at_wgt (s_sending st) d)%Q) by (intros X; apply Qle_bool_iff in X; congruence). lra.
    + destruct (HT2 d) as [E0|L0].
      * left. rewrite filter_app, E0. cbn [filter fst]. now rewrite (proj2 (Z.eqb_neq p d) Np).
      * right. rewrite AT, (proj2 (Z.eqb_neq p d) Np). lra.
Qed.

(** the cavities known are parts of the cavities of the edges *)
Definition cav_ok (m : cmap) : Prop := forall e c, cav_find m e = Some c -> forall v, In v c -> In v (cavity_of e).
Lemma cav_find_erase m e x : cav_find (cav_erase m e) x = if e =? x then None else cav_find m x.
Proof.
  induction m as [|(k, c) m IH]; cbn [cav_erase filter cav_find fst]; [now destruct (e =? x)|]. fold (cav_erase m e). destruct (Nat.eqb_spec k e) as [->|Nk]; cbn [negb].
  - rewrite IH. destruct (Nat.eqb_spec e x); reflexivity.
  - cbn [cav_find]. rewrite IH. destruct (Nat.eqb_spec k x) as [->|]; [|reflexivity]. now rewrite (proj2 (Nat.eqb_neq e x) (not_eq_sym Nk)).
Qed.
Lemma cav_find_update plan m e : cav_find (updateCavities plan m) e = option_map (filter (fun v => negb (smem (pl_sending plan) v))) (cav_find m e).
Proof. induction m as [|(k, c) m IH]; cbn [updateCavities map cav_find fst snd]; [reflexivity|]. destruct (k =? e); [reflexivity|exact IH]. Qed.

Definition cav_at (m : cmap) (e : nat) : list nat := match cav_find m e with Some c => c | None => [] end.
Lemma edge_ok cavSize st A cs e l : cavSize <= 12 -> In e es -> cav_ok (s_cav st) -> log_ok A cs (s_sending st) (s_plan st) (s_w st) -> (s_w st <= c_total targets)%Q -> waiting (s_q st) l -> length l < capacity (s_q st) ->
  exists st' A' cs' k, select_edge val ord pord g gw fuel targets limit cavSize dim st e = Some st' /\ cav_ok (s_cav st') /\ log_ok (A ++ A') (cs ++ cs') (s_sending st') (s_plan st') (s_w st') /\
    waiting (s_q st') (l ++ k) /\ (k = [] \/ k = [e]) /\ capacity (s_q st') = capacity (s_q st) /\ sa_cur (s_q st') = sa_cur (s_q st) /\
    (forall x, x <> e \/ k = [e] -> cav_find (s_cav st') x = cav_find (s_cav st) x).
Proof.
  intros HS He HC HL Hw HQ Hl. unfold select_edge. fold (cav_at (s_cav st) e). set (cav := cav_at (s_cav st) e). assert (CC : forall v, In v cav -> In v (cavity_of e)). { unfold cav, cav_at. destruct (cav_find (s_cav st) e) eqn:E; [exact (HC e _ E)|intros v []]. }
  assert (LC : forall v, In v cav -> loc v) by (intros v Hv; eapply cavity_loc; [apply H_es; exact He|auto]).
  destruct (peers_ok (s_plan st) cav (proj1 HL) LC) as (peers & ->). cbn [obind].
  assert (X : exists st' sent A' cs', (if length cav <? cavSize then try_peers val ord g gw fuel targets limit dim cav peers st else Some (st, false)) = Some (st', sent) /\ log_ok (A ++ A') (cs ++ cs') (s_sending st') (s_plan st') (s_w st') /\ s_q st' = s_q st /\ s_cav st' = s_cav st).
  { destruct (Nat.ltb_spec (length cav) cavSize); [eapply try_ok; eauto; lia|]. exists st, false, [], []. rewrite !app_nil_r. auto. }
  destruct X as (st' & sent & A' & cs' & E & L' & Q' & C'). rewrite E. cbn [obind]. destruct sent.
  - eexists _, A', cs', []. split; [reflexivity|]. cbn [s_cav s_sending s_plan s_w s_q]. rewrite app_nil_r, Q', C'. split; [|split; [auto|split; [auto|split; [auto|split; [auto|split; [auto|]]]]]].
    + intros x c Ex. rewrite cav_find_erase in Ex. destruct (e =? x); [discriminate|exact (HC x c Ex)].
    + intros x [Nx|X]; [|discriminate]. rewrite cav_find_erase. destruct (Nat.eqb_spec e x); [congruence|reflexivity].
  - rewrite Q'. destruct (sa_add_ok (s_q st) l e HQ Hl) as (q' & Eq & Wq & Cq & Dq & _). rewrite Eq. cbn [obind]. eexists _, A', cs', [e]. split; [reflexivity|]. cbn [s_cav s_sending s_plan s_w s_q]. rewrite C'. auto 12.
Qed.
(** elements of one list occur, in order, in another *)
Inductive sublist {A} : list A -> list A -> Prop :=
| sub_nil : forall l, sublist [] l
| sub_keep : forall x a b, sublist a b -> sublist (x :: a) (x :: b)
| sub_skip : forall x a b, sublist a b -> sublist a (x :: b).
Lemma sublist_in A (a b : list A) x : sublist a b -> In x a -> In x b.
Proof. induction 1; cbn; [tauto| |]; intuition. Qed.
Lemma sublist_length A (a b : list A) : sublist a b -> length a <= length b.
Proof. induction 1; cbn; lia. Qed.
Lemma sublist_trans A (a b c : list A) : sublist a b -> sublist b c -> sublist a c.
Proof. intros H1 H2. revert a H1. induction H2; intros a' H1; inversion H1; subst; try constructor; auto. Qed.
Lemma loop_ok cavSize : cavSize <= 12 -> forall r l0 kept st A cs, (forall e, In e (l0 ++ r) -> In e es) -> (forall i e, nth_error (l0 ++ r) i = Some e -> aget (sa_cur (s_q st)) i = Some e) ->
  cav_ok (s_cav st) -> log_ok A cs (s_sending st) (s_plan st) (s_w st) -> waiting (s_q st) kept -> length kept + length r <= capacity (s_q st) ->
  exists st' A' cs' k, select_loop val ord pord g gw fuel targets limit cavSize dim (seq (length l0) (length r)) st = Some st' /\ cav_ok (s_cav st') /\ log_ok (A ++ A') (cs ++ cs') (s_sending st') (s_plan st') (s_w st') /\
    waiting (s_q st') (kept ++ k) /\ sublist k r /\ capacity (s_q st') = capacity (s_q st) /\ sa_cur (s_q st') = sa_cur (s_q st) /\
    (NoDup r -> forall x, ~ In x r \/ In x k -> cav_find (s_cav st') x = cav_find (s_cav st) x).
Proof.
  intros HS. induction r as [|e r IH]; intros l0 kept st A cs HE HG HC HL HW HK; cbn [length seq select_loop].
  - exists st, [], [], []. rewrite !app_nil_r. split; [auto|]. split; [auto|]. split; [auto|]. split; [auto|]. split; [constructor|auto].
  - destruct (Qle_bool (s_w st) (c_total targets)) eqn:Q; cbn [negb].
    2: { exists st, [], [], []. rewrite !app_nil_r. split; [auto|]. split; [auto|]. split; [auto|]. split; [auto|]. split; [constructor|auto]. }
    apply Qle_bool_iff in Q. assert (E0 : sa_get (s_q st) (length l0) = Some e). { apply HG. rewrite nth_error_app2, Nat.sub_diag by lia. reflexivity. } rewrite E0. cbn [obind].
    destruct (edge_ok cavSize st A cs e kept HS ltac:(apply HE, in_app_iff; right; left; auto) HC HL Q HW ltac:(cbn in HK; lia)) as (st1 & A1 & c1 & k1 & E1 & C1 & L1 & W1 & K1 & P1 & D1 & F1). rewrite E1. cbn [obind].
    assert (LL : length (l0 ++ [e]) = S (length l0)) by (rewrite app_length; cbn; lia). assert (EA : (l0 ++ [e]) ++ r = l0 ++ e :: r) by (rewrite <- app_assoc; reflexivity).
    destruct (IH (l0 ++ [e]) (kept ++ k1) st1 (A ++ A1) (cs ++ c1)) as (st' & A' & c' & k & E & C' & L' & W' & K' & P' & D' & F'); auto.
    + intros x Hx. apply HE. now rewrite <- EA.
    + intros i x Hx. rewrite D1. apply HG. now rewrite <- EA.
    + rewrite P1, app_length. cbn in HK. destruct K1 as [-> | ->]; cbn; lia.
    + rewrite LL in E. exists st', (A1 ++ A'), (c1 ++ c'), (k1 ++ k). rewrite !app_assoc. split; auto. split; auto. split; auto. split; auto. split; [|split; [congruence|split; [congruence|]]].
      { destruct K1 as [-> | ->]; cbn [app]; constructor; auto. }
      intros ND x Hx. inversion ND as [|? ? Ne Nr]; subst.
      assert (Xr : In x k -> In x r) by (intros; eapply sublist_in; eauto).
      assert (T1 : x <> e \/ k1 = [e]).
      { destruct (Nat.eq_dec x e) as [->|]; [|auto]. destruct Hx as [Hx|Hx]; [exfalso; apply Hx; left; auto|]. apply in_app_iff in Hx as [Hx|Hx]; [|tauto].
        destruct K1 as [-> | ->]; [destruct Hx|auto]. }
      rewrite <- (F1 x T1). apply F'; auto. destruct Hx as [Hx|Hx]; [left; intros H; apply Hx; right; auto|]. apply in_app_iff in Hx as [Hx|Hx]; [|auto].
      left. destruct K1 as [-> | ->]; [destruct Hx|]. destruct Hx as [<-|[]]. exact Ne.
Qed.
(** what remains of the cavities of the edges that wait: their vertices not planned yet *)
Definition exact (st : sel) (l : list nat) : Prop := forall x, In x l -> cav_find (s_cav st) x = Some (filter (fun v => negb (smem (pl_sending (s_plan st)) v)) (cavity_of x)).
Lemma sublist_nodup A (a b : list A) : sublist a b -> NoDup b -> NoDup a.
Proof. induction 1; intros N; [constructor| |]; inversion N; subst; auto. constructor; auto. intros I. eapply sublist_in in I; eauto. Qed.
Definition sel_ok (A : list (Z * list nat)) (cs : list plan_op) (l : list nat) (st : sel) : Prop :=
  cav_ok (s_cav st) /\ log_ok A cs (s_sending st) (s_plan st) (s_w st) /\ waiting (s_q st) l /\ (forall e, In e l -> In e es) /\ length l <= capacity (s_q st) /\ length l <= length (sa_cur (s_q st)).
Lemma select_ok cavSize st A cs l : cavSize <= 12 -> sel_ok A cs l st ->
  exists st' A' cs' l', select val ord pord g gw fuel targets limit cavSize dim st = Some st' /\ sel_ok (A ++ A') (cs ++ cs') l' st' /\ sublist l' l /\ (NoDup l -> exact st l -> exact st' l').
Proof.
  intros HS (HC & HL & (Hn & Hi) & HE & HK & HK2). unfold select. cbn [sa_start sa_size]. rewrite Hn.
  destruct (loop_ok cavSize HS l [] [] (mkSel (sa_start (s_q st)) (s_cav st) (s_sending st) (s_plan st) (s_w st)) A cs) as (st' & A' & c' & k & E & C' & L' & W' & K' & P' & D' & F'); auto.
  - intros i e Hie. cbn [s_q sa_start sa_cur]. rewrite Hi; auto. apply nth_error_Some. cbn [app] in Hie. congruence.
  - split; [reflexivity|cbn; lia].
  - cbn [length seq app] in *. rewrite E. cbn [obind]. eexists _, A', c', k. split; [reflexivity|]. cbn [s_cav s_sending s_plan s_w s_q app] in *. assert (LK := sublist_length _ _ _ K'). split; [|split; [auto|]].
    2: { intros ND HX x Hx. cbn [s_cav s_plan]. rewrite cav_find_update, (F' ND x (or_intror Hx)), (HX x (sublist_in _ _ _ x K' Hx)). cbn [option_map]. f_equal.
      assert (SS : forall v, smem (pl_sending (s_plan st)) v = true -> smem (pl_sending (s_plan st')) v = true).
      { intros v Hv. apply smem_in. apply smem_in in Hv. destruct HL as (_ & _ & _ & FA & _). destruct L' as (_ & _ & _ & FA' & _). rewrite <- FA', flat_map_app. apply in_app_iff. left. now rewrite FA. }
      clear - SS. induction (cavity_of x) as [|v c IH]; cbn [filter]; auto. destruct (smem (pl_sending (s_plan st)) v) eqn:Ev; cbn [negb filter].
      - rewrite (SS v Ev). cbn [negb]. exact IH.
      - destruct (smem (pl_sending (s_plan st')) v); cbn [negb]; rewrite IH; reflexivity. }
    split; [|split; [exact L'|]].
    + intros x c Ex v Hv. cbn [s_cav] in Ex. rewrite cav_find_update in Ex. destruct (cav_find (s_cav st') x) as [c0|] eqn:E0; cbn in Ex; [|discriminate]. inversion Ex; subst c. apply filter_In in Hv as (Hv & _). exact (C' x c0 E0 v Hv).
    + split; auto. split; [intros e He; apply HE; eapply sublist_in; eauto|]. cbn [s_q]. rewrite P', D'. unfold capacity in *. cbn [s_q sa_start sa_next sa_cur] in *. lia.
Qed.
Lemma sizes_ok st A cs l : sel_ok A cs l st -> exists st' A' cs' l', select_sizes val ord pord g gw fuel targets limit dim st = Some st' /\ sel_ok (A ++ A') (cs ++ cs') l' st' /\ sublist l' l /\ (NoDup l -> exact st l -> exact st' l').
Proof.
  unfold select_sizes. assert (HS : forall k, In k [2; 4; 6; 8; 10; 12] -> k <= 12) by (intros k Hk; cbn in Hk; lia). revert HS. generalize [2; 4; 6; 8; 10; 12]. intros ks. revert st A cs l.
  induction ks as [|k ks IH]; intros st A cs l HS H; cbn [foldM].
  - exists st, [], [], l. rewrite !app_nil_r. split; auto. split; auto. split; auto. clear. induction l; constructor; auto.
  - destruct (select_ok k st A cs l ltac:(apply HS; left; auto) H) as (s1 & A1 & c1 & l1 & E1 & H1 & S1 & X1). rewrite E1. cbn [obind]. destruct (IH s1 _ _ _ ltac:(intros; apply HS; right; auto) H1) as (s2 & A2 & c2 & l2 & E2 & H2 & S2 & X2).
    exists s2, (A1 ++ A2), (c1 ++ c2), l2. rewrite !app_assoc. split; auto. split; auto. split; [eapply sublist_trans; eauto|]. intros ND HX. apply X2; [eapply sublist_nodup; eauto|auto].
Qed.
Lemma cav_find_insert m e c x : cav_find (cav_insert m e c) x = match cav_find m x with Some y => Some y | None => if e =? x then Some c else None end.
Proof.
  assert (G : forall m, cav_find (m ++ [(e, c)]) x = match cav_find m x with Some y => Some y | None => if e =? x then Some c else None end). { clear. induction m as [|(k, y) m IH]; cbn [app cav_find]; [reflexivity|]. destruct (k =? x); auto. }
  unfold cav_insert. destruct (cav_find m e) as [y|] eqn:E; [|apply G]. destruct (cav_find m x) eqn:Ex; [reflexivity|]. destruct (Nat.eqb_spec e x); [congruence|reflexivity].
Qed.
(** the constructor *)
Lemma new_ok q : waiting q es -> length es <= capacity q -> length es <= length (sa_cur q) -> (forall e, In e es -> length (cavity_of e) < 100) -> exists st, new_selector g fuel q p0 = Some st /\ sel_ok [] [] es st /\ exact st es.
Proof.
  intros (Wn & Wi) HK HK2 H100. unfold new_selector, constructCavities. cbv zeta. replace (sa_size (sa_start q)) with (length es) by (cbn [sa_start sa_size]; auto).
  assert (G : forall r l0 q1 m, es = l0 ++ r -> sa_cur q1 = sa_next q -> waiting q1 l0 -> capacity q1 = length (sa_cur q) -> cav_ok m -> (forall x c, cav_find m x = Some c -> c = cavity_of x) -> (forall x, In x l0 -> cav_find m x <> None) -> exists q2 m2,
     foldM (fun '(q, m) i => e <- sa_get q i ;; c <- getCavity g fuel e ;; q' <- sa_add q e ;; if length c <? 100 then Some (q', cav_insert m e c) else None) (seq (length l0) (length r)) (q1, m) = Some (q2, m2) /\
     sa_cur q2 = sa_next q /\ waiting q2 es /\ capacity q2 = length (sa_cur q) /\ cav_ok m2 /\ (forall x c, cav_find m2 x = Some c -> c = cavity_of x) /\ (forall x, In x es -> cav_find m2 x <> None)).
  { induction r as [|e r IH]; intros l0 q1 m EL EC WQ CQ CM CE CP; cbn [length seq foldM].
    - exists q1, m. rewrite app_nil_r in EL. subst l0. auto 10.
    - assert (Ie : In e es) by (rewrite EL; apply in_app_iff; right; left; auto).
      assert (E0 : sa_get q1 (length l0) = Some e). { unfold sa_get. rewrite EC, Wi, EL. - rewrite nth_error_app2, Nat.sub_diag by lia. reflexivity. - rewrite EL, app_length. cbn. lia. }
      rewrite E0. cbn [obind]. rewrite getCavity_ok by auto. cbn [obind]. destruct (sa_add_ok q1 l0 e WQ) as (q2 & E2 & W2 & C2 & D2 & _). { rewrite CQ. assert (length es = length l0 + S (length r)) by (rewrite EL, app_length; reflexivity). lia. }
      rewrite E2. cbn [obind]. destruct (Nat.ltb_spec (length (cavity_of e)) 100) as [_|X]; [|specialize (H100 e Ie); lia].
      assert (LL : length (l0 ++ [e]) = S (length l0)) by (rewrite app_length; cbn; lia). destruct (IH (l0 ++ [e]) q2 (cav_insert m e (cavity_of e))) as (q3 & m3 & E3 & X3); auto; try congruence.
      + rewrite <- app_assoc. exact EL.
      + intros x c Ex v Hv. rewrite cav_find_insert in Ex. destruct (cav_find m x) eqn:Em; [inversion Ex; subst; eapply CM; eauto|]. destruct (Nat.eqb_spec e x) as [->|]; [|discriminate]. now inversion Ex; subst.
      + intros x c Ex. rewrite cav_find_insert in Ex. destruct (cav_find m x) eqn:Em; [inversion Ex; subst; eapply CE; eauto|]. destruct (Nat.eqb_spec e x) as [->|]; [|discriminate]. now inversion Ex; subst.
      + intros x Hx. rewrite cav_find_insert. apply in_app_iff in Hx as [Hx|[<-|[]]].
        * specialize (CP x Hx). destruct (cav_find m x); congruence.
        * rewrite Nat.eqb_refl. destruct (cav_find m e); discriminate.
      + rewrite LL in E3. eauto. }
  destruct (G es [] (sa_start q) []) as (q2 & m2 & E & A1 & A2 & A3 & A4 & A5 & A6); auto; [split; [reflexivity|cbn; lia]|intros e c X; discriminate|intros e c X; discriminate|]. cbn [length] in E. match goal with |- exists st, obind ?X _ = _ /\ _ => replace X with (Some (q2, m2)) by (symmetry; exact E) end. cbn [obind].
  eexists. split; [reflexivity|]. split.
  - split; [exact A4|]. split; [exact log_start|]. cbn [s_q]. split; auto. split; auto. rewrite A3, A1. split; [lia|exact HK].
  - intros x Hx. cbn [s_cav s_plan]. rewrite H_empty. cbn [smem]. specialize (A6 x Hx). destruct (cav_find m2 x) as [c|] eqn:Ec; [|congruence]. f_equal. rewrite (A5 x c Ec).
    clear. induction (cavity_of x) as [|v l IH]; cbn [filter]; auto. cbn. rewrite <- IH at 1. reflexivity.
Qed.
Theorem selection_ok q : waiting q es -> length es <= capacity q -> length es <= length (sa_cur q) -> (forall e, In e es -> length (cavity_of e) < 100) ->
  exists s0 st A cs l, new_selector g fuel q p0 = Some s0 /\ select_sizes val ord pord g gw fuel targets limit dim s0 = Some st /\ sel_ok A cs l st /\ sublist l es /\ (NoDup es -> exact st l).
Proof. intros A1 A2 A3 A4. destruct (new_ok q A1 A2 A3 A4) as (s0 & E0 & H0 & X0). destruct (sizes_ok s0 [] [] es H0) as (st & A & cs & l & E & H & S & X). cbn [app] in H. exists s0, st, A, cs, l. auto 10. Qed.

(** *** what the vertices bring to the parts they were first planned for *)
Hypothesis H_epos : forall h t e, loc h -> tok t -> In e (il t h) -> (0 <= ew e)%Q.
Hypothesis H_vpos : forall h, loc h -> (0 <= vw h)%Q.
Definition first_plan (A : list (Z * list nat)) : list (nat * Z) := flat_map (fun a => map (fun v => (v, fst a)) (snd a)) A.
Lemma sent_first A d : sent_to d (first_plan A) = flat_map snd (filter (fun a => Z.eqb (fst a) d) A).
Proof.
  unfold sent_to, first_plan. induction A as [|(k, vs) A IH]; [reflexivity|]. cbn [flat_map fst snd filter]. rewrite filter_app, map_app, IH. destruct (Z.eqb k d) eqn:E; cbn [flat_map snd].
  - f_equal. clear - E. induction vs as [|v vs IH]; [reflexivity|]. cbn [map filter snd]. rewrite E. cbn [map fst]. now rewrite IH.
  - cut (filter (fun k0 : nat * Z => (snd k0 =? d)%Z) (map (fun v => (v, k)) vs) = []); [intros ->; reflexivity|]. clear - E. induction vs as [|v vs IH]; [reflexivity|]. cbn [map filter snd]. now rewrite E.
Qed.
Lemma qsum_addall (f : nat -> Q) l : forall s, (forall x, In x l -> 0 <= f x)%Q -> (qsum (map f (addall s l)) <= qsum (map f s) + qsum (map f l))%Q.
Proof.
  induction l as [|x l IH]; intros s H; cbn [addall fold_left map qsum]; [lra|]. fold (addall (sadd s x) l). eapply Qle_trans; [apply IH; intros; apply H; right; auto|]. assert (0 <= f x)%Q by (apply H; left; auto). unfold sadd. destruct (smem s x); [lra|]. rewrite map_app, qsum_app. cbn [map qsum]. lra.
Qed.
Lemma load_added A d : (forall a, In a A -> good_add a) -> (true_load il res ew vw (first_plan A) d dim <= added_to A d)%Q.
Proof.
  clear H_B. intros HA. assert (LA : forall a v, In a A -> In v (snd a) -> loc v). { intros a v Ha Hv. destruct (HA a Ha) as (_ & _ & H). destruct (H v Hv) as (e & He & Hc). eapply cavity_loc; eauto. }
  unfold added_to, added. destruct dim as [t|]; cbn [true_load].
  - unfold eset. rewrite sent_first. unfold wsum.
    assert (G : forall A', (forall a v, In a A' -> In v (snd a) -> loc v) -> (forall a, In a A' -> fst a = d) -> (qsum (map ew (addall [] (flat_map (news il res t d) (flat_map snd A')))) <= qsum (map (fun a => gain (Some t) (fst a) (snd a)) A'))%Q).
    { induction A' as [|(k, vs) A' IH]; intros LA' HK; [cbn; lra|]. cbn [flat_map map qsum fst snd]. rewrite flat_map_app, addall_app, addall_split, map_app, qsum_app. assert (k = d) by (apply (HK (k, vs)); left; auto). subst k.
      assert (E1 : (qsum (map ew (addall [] (flat_map (news il res t d) vs))) == gain (Some t) d vs)%Q).
      { cbn [gain]. apply qperm, Permutation_map. apply NoDup_Permutation; [apply addall_nodup; constructor|apply NoDup_filter, addall_nodup; constructor|]. intros x. unfold edges_of. rewrite filter_In, !addall_in, !in_flat_map. unfold news. cbn [In]. setoid_rewrite filter_In. split; [intros [[]|(v & Hv & A1 & A2)]; split; auto; right; eauto|intros ([[]|(v & Hv & A1)] & A2); right; eauto]. }
      assert (E2 : (qsum (map ew (addall [] (filter (fun x => negb (smem (addall [] (flat_map (news il res t d) vs)) x)) (flat_map (news il res t d) (flat_map snd A'))))) <= qsum (map ew (addall [] (flat_map (news il res t d) (flat_map snd A')))))%Q).
      { apply (wsum_incl ew); [apply addall_nodup; constructor| |].
        - intros x Hx. apply addall_in in Hx as [[]|Hx]. apply filter_In in Hx as (Hx & _). apply addall_in. auto.
        - intros x Hx. apply addall_in in Hx as [[]|Hx]. apply in_flat_map in Hx as (v & Hv & Hx). apply filter_In in Hx as (Hx & _). apply in_flat_map in Hv as (a & Ha & Hv). apply (H_epos v t x); [eapply LA'; [right; exact Ha|exact Hv]| |exact Hx]. exact H_dim. }
      rewrite E1. assert (IH' := IH ltac:(intros a v Ha; apply LA'; right; auto) ltac:(intros a Ha; apply HK; right; auto)). lra. }
    apply G; [intros a v Ha; apply filter_In in Ha as (Ha & _); now apply LA|]. intros a Ha. apply filter_In in Ha as (_ & Ha). now apply Z.eqb_eq.
  - unfold vload. rewrite sent_first. generalize (filter (fun a : Z * list nat => (fst a =? d)%Z) A). intros A'. clear. induction A' as [|(k, vs) A' IH]; [cbn; lra|]. cbn [flat_map map qsum fst snd]. rewrite map_app, qsum_app. change (gain None k vs) with (qsum (map vw vs)). lra.
Qed.
(** the additions to the different parts *)
Lemma added_split A (ds : list Z) : NoDup ds -> (forall a, In a A -> In (fst a) ds) -> (added A == qsum (map (added_to A) ds))%Q.
Proof.
  intros ND. induction A as [|(k, vs) A IH]; intros H.
  - unfold added_to, added. cbn. rewrite (qsum_eq _ 0%Q); [ring|]. intros y Hy. apply in_map_iff in Hy as (x & <- & _). reflexivity.
  - assert (E : (added ((k, vs) :: A) == gain dim k vs + added A)%Q) by reflexivity. rewrite E, IH by (intros; apply H; right; auto).
    assert (G : forall ds, NoDup ds -> (qsum (map (added_to ((k, vs) :: A)) ds) == (if existsb (Z.eqb k) ds then gain dim k vs else 0) + qsum (map (added_to A) ds))%Q).
    { clear. induction ds as [|x ds IH]; intros N; [cbn; ring|]. inversion N as [|? ? NI N']; subst. cbn [map qsum existsb]. rewrite (IH N'). assert (E : (added_to ((k, vs) :: A) x == (if Z.eqb k x then gain dim k vs else 0) + added_to A x)%Q). { unfold added_to. cbn [filter fst]. destruct (Z.eqb k x); [unfold added; cbn [map qsum fst snd]; ring|ring]. } rewrite E.
      destruct (Z.eqb_spec k x) as [->|]; cbn [orb]; [|ring]. destruct (existsb (Z.eqb x) ds) eqn:EX; [|ring]. apply existsb_exists in EX as (y & Hy & Ey). apply Z.eqb_eq in Ey. subst y. contradiction. }
    rewrite (G ds ND). assert (EX : existsb (Z.eqb k) ds = true). { apply existsb_exists. exists k. split; [apply (H (k, vs)); left; auto|apply Z.eqb_refl]. } rewrite EX. ring.
Qed.
(** a bound for what twelve vertices add *)
Definition load1 (h : nat) : Q := match dim with None => vw h | Some t => qsum (map ew (il t h)) end.
Lemma gain_bound d vs M : (forall v, In v vs -> loc v) -> (forall v, In v vs -> load1 v <= M)%Q -> (0 <= M)%Q -> length vs <= 11 -> (0 <= gain dim d vs <= 11 * M)%Q.
Proof.
  clear H_B. intros HL HM M0 L. assert (PL : (gain dim d vs <= qsum (map load1 vs))%Q /\ (0 <= gain dim d vs)%Q).
  { unfold load1. destruct dim as [t|]; cbn [gain].
    - assert (EP : forall x, In x (flat_map (il t) vs) -> (0 <= ew x)%Q). { intros x Hx. apply in_flat_map in Hx as (v & Hv & Hx). eapply H_epos; eauto. }
      assert (EP2 : forall x, In x (edges_of t vs) -> (0 <= ew x)%Q). { intros x Hx. apply addall_in in Hx as [[]|Hx]. auto. } split.
      + assert (A1 : (qsum (map ew (filter (fun e => negb (res e d)) (edges_of t vs))) <= qsum (map ew (edges_of t vs)))%Q). { revert EP2. generalize (edges_of t vs). clear. induction l as [|x l IH]; intros EP; [cbn; lra|]. assert (0 <= ew x)%Q by (apply EP; left; auto). assert (IH' := IH ltac:(intros; apply EP; right; auto)). cbn [filter]. destruct (negb (res x d)); cbn [map qsum]; lra. }
        assert (A2 : (qsum (map ew (edges_of t vs)) <= qsum (map ew (flat_map (il t) vs)))%Q). { pose proof (qsum_addall ew (flat_map (il t) vs) [] EP) as X. cbn [map qsum] in X. unfold edges_of. lra. }
        assert (A3 : (qsum (map ew (flat_map (il t) vs)) == qsum (map (fun h => qsum (map ew (il t h))) vs))%Q). { clear. induction vs as [|v vs IH]; [reflexivity|]. cbn [flat_map map qsum]. rewrite map_app, qsum_app, IH. reflexivity. } lra.
      + apply qsum_nonneg. intros y Hy. apply in_map_iff in Hy as (x & <- & Hx). apply filter_In in Hx as (Hx & _). auto.
    - split; [apply Qle_refl|]. apply qsum_nonneg. intros y Hy. apply in_map_iff in Hy as (x & <- & Hx). auto. }
  destruct PL as (P1 & P2). split; auto. eapply Qle_trans; [exact P1|]. assert (Q1 : (qsum (map load1 vs) <= inject_Z (Z.of_nat (length vs)) * M)%Q).
  { clear - HM. induction vs as [|v vs IH]; [cbn [map qsum length]; change (inject_Z (Z.of_nat 0)) with 0%Q; lra|]. cbn [map qsum length]. assert (load1 v <= M)%Q by (apply HM; left; auto). assert (IH' := IH ltac:(intros; apply HM; right; auto)). rewrite Nat2Z.inj_succ. unfold Z.succ. rewrite inject_Z_plus. change (inject_Z 1) with 1%Q. lra. }
  eapply Qle_trans; [exact Q1|]. assert (inject_Z (Z.of_nat (length vs)) <= 11)%Q by (change 11%Q with (inject_Z 11); rewrite <- Zle_Qle; lia). nra.
Qed.

(** ** selectDisconnected *)
(** *** the peers of a cavity *)
Section Disc.
Hypothesis H_pord : forall m, Permutation (pord m) m.
(** part p has a vertex of edge e, or will have one by the plan *)
Definition dest_of (plan : mplan) (v : nat) : Z := match plan_get g plan v with Some d => d | None => 0%Z end.
Definition tch (plan : mplan) (p : Z) (e : nat) : bool :=
  existsb (fun v => if Z.eqb (ow v) (self g) then smem (pl_sending plan) v && Z.eqb (dest_of plan v) p else Z.eqb (ow v) p) (pn e).
Definition shared (plan : mplan) (c : list nat) (p : Z) : nat := length (filter (tch plan p) (edges_of 0 (ord c))).
Lemma cavity_edges_is c : (forall v, In v c -> loc v) -> cavity_edges ord g fuel c = Some (edges_of 0 (ord c)).
Proof.
  intros HL. unfold cavity_edges, edges_of. assert (HL' : forall v, In v (ord c) -> loc v) by (intros v Hv; apply HL; eapply Permutation_in; [apply H_ord|exact Hv]).
  revert HL'. generalize (ord c). intros l. assert (G : forall l s, (forall v, In v l -> loc v) -> foldM (fun s v => es <- vertex_edges g v 0 fuel ;; Some (fold_left sadd es s)) l s = Some (addall s (flat_map (il 0) l))).
  { clear l HL c. induction l as [|v l IH]; intros s HL; cbn [foldM flat_map]; auto. rewrite (H_il v 0 (HL v (or_introl eq_refl)) H_tok). cbn [obind]. rewrite IH by (intros; apply HL; right; auto). unfold addall. rewrite fold_left_app. reflexivity. }
  intros HL'. apply G. exact HL'.
Qed.
Definition entries (plan : mplan) (E : list nat) (m : zmap (list nat)) : Prop :=
  NoDup (map fst m) /\ forall p, zfind m p = match filter (tch plan p) E with [] => None | l => Some l end.
Lemma sadd_last s e : ~ In e s -> sadd s e = s ++ [e]. Proof. intros H. unfold sadd. apply smem_no in H. now rewrite H. Qed.
Lemma sadd_again s e : In e s -> sadd s e = s. Proof. intros H. unfold sadd. apply smem_in in H. now rewrite H. Qed.
Lemma peer_edge_is plan E m e : plan_ok plan -> eok e -> ~ In e E -> entries plan E m -> exists m', peer_edge g fuel plan m e = Some m' /\ entries plan (E ++ [e]) m'.
Proof.
  intros HP Hk Ne (N & HM). unfold peer_edge. rewrite (H_pn e Hk). cbn [obind].
  set (hit := fun p v => if Z.eqb (ow v) (self g) then smem (pl_sending plan) v && Z.eqb (dest_of plan v) p else Z.eqb (ow v) p).
  assert (G : forall ps done m, (forall v, In v ps -> In v (pn e)) -> NoDup (map fst m) ->
     (forall p, zfind m p = match filter (tch plan p) E ++ (if existsb (hit p) done then [e] else []) with [] => None | l => Some l end) ->
     exists m', foldM (fun m v => o <- owner g v ;; if negb (Z.eqb o (self g)) then Some (peer_add m o e) else b <- plan_has g plan v ;; if b then d <- plan_get g plan v ;; Some (peer_add m d e) else Some m) ps m = Some m' /\ NoDup (map fst m') /\
       (forall p, zfind m' p = match filter (tch plan p) E ++ (if existsb (hit p) (done ++ ps) then [e] else []) with [] => None | l => Some l end)).
  { clear N HM m. induction ps as [|v ps IH]; intros done m Hv N HM; cbn [foldM]; [rewrite app_nil_r; eauto|]. assert (Iv : In v (pn e)) by (apply Hv; left; auto). rewrite (H_ow e v Hk Iv). cbn [obind].
    assert (ADD : forall d, (forall p, hit p v = Z.eqb d p) -> NoDup (map fst (peer_add m d e)) /\ (forall p, zfind (peer_add m d e) p = match filter (tch plan p) E ++ (if existsb (hit p) (done ++ [v]) then [e] else []) with [] => None | l => Some l end)).
    { intros d Hd. unfold peer_add. split; [now apply zput_nodup|]. intros p. rewrite zfind_zput, existsb_app. cbn [existsb]. rewrite Hd, orb_false_r. destruct (Z.eqb_spec d p) as [->|].
      - rewrite orb_true_r. unfold at_set. rewrite HM. assert (NF : ~ In e (filter (tch plan p) E)) by (rewrite filter_In; tauto). destruct (existsb (hit p) done).
        + destruct (filter (tch plan p) E) as [|a l] eqn:EF; cbn [app]; [rewrite sadd_again by (left; auto); auto|]. rewrite sadd_again; auto. right. apply in_app_iff. right. left; auto.
        + rewrite app_nil_r. destruct (filter (tch plan p) E) as [|a l] eqn:EF; cbn [app]; [reflexivity|]. rewrite sadd_last by auto. reflexivity.
      - rewrite orb_false_r. apply HM. }
    assert (SKIP : (forall p, hit p v = false) -> forall p, zfind m p = match filter (tch plan p) E ++ (if existsb (hit p) (done ++ [v]) then [e] else []) with [] => None | l => Some l end).
    { intros Hd p. rewrite existsb_app. cbn [existsb]. rewrite Hd, !orb_false_r. apply HM. }
    assert (EA : forall m', NoDup (map fst m') -> (forall p, zfind m' p = match filter (tch plan p) E ++ (if existsb (hit p) (done ++ [v]) then [e] else []) with [] => None | l => Some l end) ->
      exists m'', foldM (fun m v => o <- owner g v ;; if negb (Z.eqb o (self g)) then Some (peer_add m o e) else b <- plan_has g plan v ;; if b then d <- plan_get g plan v ;; Some (peer_add m d e) else Some m) ps m' = Some m'' /\ NoDup (map fst m'') /\
        (forall p, zfind m'' p = match filter (tch plan p) E ++ (if existsb (hit p) (done ++ v :: ps) then [e] else []) with [] => None | l => Some l end)).
    { intros m' N' H'. destruct (IH (done ++ [v]) m' ltac:(intros; apply Hv; right; auto) N' H') as (m'' & E1 & E2 & E3). exists m''. split; auto. split; auto. intros p. rewrite E3, <- app_assoc. reflexivity. }
    destruct (Z.eqb_spec (ow v) (self g)) as [Eo|No]; cbn [negb].
    - destruct (plan_has_ok plan v HP (H_mine e v Hk Iv Eo)) as (Eh & d & Eg). rewrite Eh. cbn [obind]. destruct (smem (pl_sending plan) v) eqn:Es.
      + rewrite Eg. cbn [obind]. destruct (ADD d) as (A1 & A2); [|auto]. intros p. unfold hit. rewrite (proj2 (Z.eqb_eq _ _) Eo), Es. unfold dest_of. rewrite Eg. reflexivity.
      + cbn [obind]. apply EA; auto. apply SKIP. intros p. unfold hit. rewrite (proj2 (Z.eqb_eq _ _) Eo), Es. reflexivity.
    - cbn [obind]. destruct (ADD (ow v)) as (A1 & A2); [|auto]. intros p. unfold hit. rewrite (proj2 (Z.eqb_neq _ _) No). reflexivity. }
  destruct (G (pn e) [] m) as (m' & E1 & E2 & E3); auto; [intros p; cbn [existsb]; rewrite app_nil_r; apply HM|]. exists m'. split; auto. split; auto. intros p. rewrite E3, filter_app. cbn [app filter]. assert (TE : tch plan p e = existsb (hit p) (pn e)) by reflexivity. rewrite TE. destruct (existsb (hit p) (pn e)); reflexivity.
Qed.
Lemma count_insert_in l k p x : In x (count_insert l k p) -> x = (k, p) \/ In x l.
Proof. induction l as [|(k', p') l IH]; cbn [count_insert]; [cbn; intuition|]. destruct (k =? k'); [auto|]. destruct (k' <? k); cbn; [intuition|]. intros [H|H]; auto. apply IH in H. tauto. Qed.
(** the first peer shares the largest number of edges *)
Lemma count_fold (ent : list (Z * list nat)) : forall l, (forall x, In x ent -> snd x <> []) -> (forall y, In y l -> fst y <= match l with [] => 0 | z :: _ => fst z end) ->
  let f := fold_left (fun l x => count_insert l (length (snd x)) (fst x)) ent l in
  (forall y, In y f -> fst y <= match f with [] => 0 | z :: _ => fst z end) /\ (forall y, In y f -> In y l \/ exists x, In x ent /\ y = (length (snd x), fst x)) /\
  (forall x, In x ent -> length (snd x) <= match f with [] => 0 | z :: _ => fst z end) /\ (match l with [] => 0 | z :: _ => fst z end <= match f with [] => 0 | z :: _ => fst z end) /\ (l <> [] \/ ent <> [] -> f <> []).
Proof.
  induction ent as [|x ent IH]; intros l HN HL; cbn [fold_left].
  - split; auto. split; auto. split; [intros ? []|]. split; auto. tauto.
  - set (l1 := count_insert l (length (snd x)) (fst x)).
    assert (H1 : (forall y, In y l1 -> fst y <= match l1 with [] => 0 | z :: _ => fst z end) /\ length (snd x) <= match l1 with [] => 0 | z :: _ => fst z end /\ (match l with [] => 0 | z :: _ => fst z end <= match l1 with [] => 0 | z :: _ => fst z end) /\ l1 <> []).
    { unfold l1. destruct l as [|(k, p) l]; cbn [count_insert]; [cbn; repeat split; try lia; try discriminate; intros y [<-|[]]; cbn; lia|].
      destruct (Nat.eqb_spec (length (snd x)) k) as [->|]; [cbn [fst]; repeat split; auto; discriminate|]. destruct (Nat.ltb_spec k (length (snd x))).
      - cbn [fst]. repeat split; try lia; try discriminate. intros y [<-|Hy]; [cbn; lia|]. specialize (HL y Hy). cbn in HL. lia.
      - cbn [fst]. repeat split; try lia; try discriminate. intros y [<-|Hy]; [cbn; lia|]. apply count_insert_in in Hy as [->|Hy]; [cbn; lia|]. specialize (HL y (or_intror Hy)). cbn in HL. lia. }
    destruct H1 as (A1 & A2 & A3 & A4). destruct (IH l1 ltac:(intros; apply HN; right; auto) A1) as (B1 & B2 & B3 & B4 & B5). split; auto. split.
    { intros y Hy. destruct (B2 y Hy) as [H|(z & Hz & ->)]; [|right; exists z; cbn; auto]. unfold l1 in H. apply count_insert_in in H as [->|H]; [right; exists x; cbn; auto|auto]. }
    split; [intros y [<-|Hy]; [lia|auto]|]. split; [lia|]. intros _. apply B5. auto.
Qed.
Lemma peers_spec plan c : plan_ok plan -> (forall v, In v c -> loc v) -> exists peers, getCavityPeers ord pord g fuel plan c = Some peers /\
  (forall p, In p peers -> 0 < shared plan c p) /\ (forall p, 0 < shared plan c p -> peers <> []) /\ (forall p r, peers = p :: r -> forall p', shared plan c p' <= shared plan c p).
Proof.
  intros HP HL. unfold getCavityPeers. rewrite (cavity_edges_is c HL). cbn [obind].
  assert (EE : forall e, In e (edges_of 0 (ord c)) -> eok e).
  { intros e He. apply addall_in in He as [[]|He]. apply in_flat_map in He as (v & Hv & He). eapply H_eok; [|exact He]. apply HL. eapply Permutation_in; [apply H_ord|exact Hv]. }
  assert (NE : NoDup (edges_of 0 (ord c))) by (apply addall_nodup; constructor).
  assert (G : forall r E m, (forall e, In e r -> eok e) -> NoDup (E ++ r) -> entries plan E m -> exists m', foldM (peer_edge g fuel plan) r m = Some m' /\ entries plan (E ++ r) m').
  { clear - HP H_pn H_ow H_mine H_loc H_ord H_tok. induction r as [|e r IH]; intros E m HE N HM; cbn [foldM]; [rewrite app_nil_r; eauto|]. destruct (peer_edge_is plan E m e HP) as (m1 & E1 & H1); auto; [apply HE; left; auto| |].
    { apply NoDup_remove_2 in N. intros X. apply N. apply in_app_iff. auto. } rewrite E1. cbn [obind]. destruct (IH (E ++ [e]) m1) as (m' & E2 & H2); auto; [intros; apply HE; right; auto|now rewrite <- app_assoc|]. exists m'. split; auto. now rewrite <- app_assoc in H2. }
  destruct (G (edges_of 0 (ord c)) [] []) as (m & Em & NM & HM); auto; [split; [constructor|reflexivity]|]. rewrite Em. cbn [obind app] in *. eexists. split; [reflexivity|].
  assert (ENT : forall p s, In (p, s) (pord m) <-> s = filter (tch plan p) (edges_of 0 (ord c)) /\ s <> []).
  { intros p s. split.
    - intros I. apply (Permutation_in _ (H_pord m)) in I. apply (zfind_in _ _ _ _ NM) in I. rewrite HM in I. destruct (filter (tch plan p) (edges_of 0 (ord c))); [discriminate|]. inversion I; subst. split; [auto|discriminate].
    - intros (-> & X). apply (Permutation_in _ (Permutation_sym (H_pord m))). apply zfind_in2. rewrite HM. destruct (filter (tch plan p) (edges_of 0 (ord c))); [congruence|reflexivity]. }
  destruct (count_fold (pord m) []) as (F1 & F2 & F3 & _ & F5); [intros (p, s) I; apply ENT in I; apply I|intros ? []|]. set (f := fold_left (fun l x => count_insert l (length (snd x)) (fst x)) (pord m) []) in *. unfold shared.
  assert (IN : forall y, In y f -> fst y = length (filter (tch plan (snd y)) (edges_of 0 (ord c))) /\ 0 < fst y).
  { intros y Hy. destruct (F2 y Hy) as [[]|((p, s) & I & ->)]. cbn [fst snd] in *. apply ENT in I as (-> & X). split; auto. destruct (filter (tch plan p) (edges_of 0 (ord c))); [congruence|cbn; lia]. }
  split; [intros p Hp; apply in_map_iff in Hp as (y & <- & Hy); destruct (IN y Hy) as (Y1 & Y2); lia|]. split.
  - intros p Hp X. apply map_eq_nil in X. apply F5; auto. right. intros Z0. assert (I : In (p, filter (tch plan p) (edges_of 0 (ord c))) (pord m)) by (apply ENT; split; auto; destruct (filter (tch plan p) (edges_of 0 (ord c))); [cbn in Hp; lia|discriminate]). rewrite Z0 in I. destruct I.
  - intros p r E p'. destruct f as [|y f'] eqn:Ef; [discriminate|]. cbn [map] in E. inversion E; subst p. destruct (IN y (or_introl eq_refl)) as (A & _). rewrite <- A. destruct (filter (tch plan p') (edges_of 0 (ord c))) as [|a l] eqn:EF; [cbn; lia|]. rewrite <- EF.
    specialize (F3 (p', filter (tch plan p') (edges_of 0 (ord c)))). cbn [snd] in F3. apply F3. apply ENT. split; auto. rewrite EF. discriminate.
Qed.
(** *** isPartiallyConnected *)
Fixpoint cnt {K} (eqb : K -> K -> bool) (m : list (K * nat)) (k : K) : nat := match m with [] => 0 | (k', n) :: r => if eqb k' k then n else cnt eqb r k end.
Definition b2n (b : bool) : nat := if b then 1 else 0.
Section Occ.
Variables (K : Type) (eqb : K -> K -> bool).
Hypothesis H_eqb : forall a b, eqb a b = true <-> a = b.
Definition good_occ (m : list (K * nat)) : Prop := NoDup (map fst m) /\ forall k n, In (k, n) m -> 0 < n.
Lemma eqb_refl' k : eqb k k = true. Proof. now apply H_eqb. Qed.
Lemma occ_add_cnt m k x : cnt eqb (occ_add eqb m k) x = cnt eqb m x + b2n (eqb k x).
Proof.
  induction m as [|(k', n) m IH]; cbn [occ_add cnt]; [unfold b2n; destruct (eqb k x); reflexivity|]. destruct (eqb k' k) eqn:E1; cbn [cnt].
  - apply H_eqb in E1. subst k'. destruct (eqb k x); cbn; lia.
  - rewrite IH. destruct (eqb k' x) eqn:E2; [|reflexivity]. apply H_eqb in E2. subst k'. destruct (eqb k x) eqn:E3; [|cbn; lia]. apply H_eqb in E3. subst k. rewrite eqb_refl' in E1. discriminate.
Qed.
Lemma occ_add_in m k x n : In (x, n) (occ_add eqb m k) -> 0 < n \/ In (x, n) m.
Proof. induction m as [|(k', n') m IH]; cbn [occ_add]; [intros [E|[]]; inversion E; lia|]. destruct (eqb k' k); cbn; [intros [E|H]; [inversion E; left; lia|auto]|]. intros [E|H]; [auto|]. apply IH in H. tauto. Qed.
Lemma occ_add_keys m k x : In x (map fst (occ_add eqb m k)) -> x = k \/ In x (map fst m).
Proof. induction m as [|(k', n') m IH]; cbn [occ_add]; [cbn; intuition|]. destruct (eqb k' k); cbn; [auto|]. intros [E|H]; [auto|]. apply IH in H. tauto. Qed.
Lemma occ_add_good m k : good_occ m -> good_occ (occ_add eqb m k).
Proof.
  intros (N & P). split.
  - clear P. induction m as [|(k', n') m IH]; cbn [occ_add]; [repeat constructor; cbn; tauto|]. cbn [map fst] in N. inversion N; subst. destruct (eqb k' k) eqn:E; cbn [map fst]; [constructor; auto|]. constructor; [|auto]. intros X. apply occ_add_keys in X as [->|X]; [rewrite eqb_refl' in E; discriminate|tauto].
  - intros x n H. apply occ_add_in in H as [H|H]; eauto.
Qed.
Lemma occ_in m k n : good_occ m -> (In (k, n) m <-> n = cnt eqb m k /\ 0 < n).
Proof.
  intros (N & P). split.
  - intros H. split; [|eauto]. clear P. induction m as [|(k', n') m IH]; cbn in *; [tauto|]. inversion N; subst. destruct H as [E|H]; [inversion E; subst; now rewrite eqb_refl'|]. destruct (eqb k' k) eqn:E; [|auto]. apply H_eqb in E. subst k'. exfalso. apply H2. now apply (in_map fst) in H.
  - intros (-> & H). clear N P. induction m as [|(k', n') m IH]; cbn in *; [lia|]. destruct (eqb k' k) eqn:E; [apply H_eqb in E; subst; auto|auto].
Qed.
End Occ.
Lemma pair_eqb_ok a b : pair_eqb a b = true <-> a = b.
Proof. unfold pair_eqb. rewrite andb_true_iff, !Nat.eqb_eq. destruct a, b; cbn. split; [intros (-> & ->); auto|intros E; inversion E; auto]. Qed.

Variables (con minCon : nat) (aj : nat -> list nat).
Hypothesis H_adj : forall h, loc h -> adjacent g h con fuel = Some (aj h).
Hypothesis H_nz : forall h v, loc h -> In v (aj h) -> v <> 0.
Hypothesis H_min : 1 <= minCon.
Definition strongb (u w : nat) : bool := negb (w =? u) && (minCon <=? count_occ Nat.eq_dec (aj u) w).
Definition settled (s c : list nat) : Prop := forall u w, In u c -> strongb u w = true -> (In w c /\ strongb w u = true) \/ In u s \/ In w s.
Definition occ_of (u : nat) : list (nat * nat) := fold_left (fun o v => if v =? u then o else occ_add Nat.eqb o v) (aj u) ([] : list (nat * nat)).
Lemma occ_of_ok u : good_occ nat (occ_of u) /\ forall w, cnt Nat.eqb (occ_of u) w = if w =? u then 0 else count_occ Nat.eq_dec (aj u) w.
Proof.
  unfold occ_of. assert (G : forall ns o, good_occ nat o -> (forall w, w = u -> cnt Nat.eqb o w = 0) -> good_occ nat (fold_left (fun o v => if v =? u then o else occ_add Nat.eqb o v) ns o) /\
    forall w, cnt Nat.eqb (fold_left (fun o v => if v =? u then o else occ_add Nat.eqb o v) ns o) w = if w =? u then 0 else cnt Nat.eqb o w + count_occ Nat.eq_dec ns w).
  { induction ns as [|v ns IH]; intros o Go Zo; cbn [fold_left count_occ].
    - split; auto. intros w. destruct (Nat.eqb_spec w u); [auto|lia].
    - destruct (Nat.eqb_spec v u) as [->|Nv].
      + destruct (IH o Go Zo) as (A1 & A2). split; auto. intros w. rewrite A2. destruct (Nat.eqb_spec w u); auto. destruct (Nat.eq_dec u w); [congruence|lia].
      + destruct (IH (occ_add Nat.eqb o v)) as (A1 & A2).
        * apply occ_add_good; auto. intros. apply Nat.eqb_eq.
        * intros w ->. rewrite (occ_add_cnt _ _ Nat.eqb_eq). rewrite Zo by auto. rewrite (proj2 (Nat.eqb_neq v u)) by auto. reflexivity.
        * split; auto. intros w. rewrite A2. destruct (Nat.eqb_spec w u); auto. rewrite (occ_add_cnt _ _ Nat.eqb_eq). destruct (Nat.eq_dec v w) as [->|]; [rewrite Nat.eqb_refl; cbn; lia|]. rewrite (proj2 (Nat.eqb_neq v w)) by auto. cbn. lia. }
  destruct (G (aj u) []) as (A1 & A2); [split; [constructor|intros ? ? []]|reflexivity|]. split; auto.
Qed.
Definition step_u (cs : list ((nat * nat) * nat)) (u : nat) : list ((nat * nat) * nat) :=
  fold_left (fun cs o => if minCon <=? snd o then occ_add pair_eqb cs (Nat.min u (fst o), Nat.max u (fst o)) else cs) (occ_of u) cs.
Lemma step_u_ok cs u : good_occ _ cs -> (forall a b n, In ((a, b), n) cs -> a < b) -> good_occ _ (step_u cs u) /\ (forall a b n, In ((a, b), n) (step_u cs u) -> a < b) /\
  forall a b, a < b -> cnt pair_eqb (step_u cs u) (a, b) = cnt pair_eqb cs (a, b) + b2n ((u =? a) && strongb a b) + b2n ((u =? b) && strongb b a).
Proof.
  intros Gc Lc. unfold step_u. destruct (occ_of_ok u) as ((No & Po) & Co).
  assert (NU : forall w n, In (w, n) (occ_of u) -> w <> u). { intros w n I ->. assert (GO : good_occ nat (occ_of u)) by (split; auto). apply (proj1 (occ_in _ _ Nat.eqb_eq (occ_of u) u n GO)) in I as (E & P). rewrite Co, Nat.eqb_refl in E. lia. }
  assert (HS : forall w, strongb u w = negb (w =? u) && (minCon <=? cnt Nat.eqb (occ_of u) w)). { intros w. unfold strongb. rewrite Co. destruct (w =? u); reflexivity. }
  assert (G : forall oc cs, NoDup (map fst oc) -> (forall w n, In (w, n) oc -> w <> u) -> good_occ _ cs -> (forall a b n, In ((a, b), n) cs -> a < b) ->
    let r := fold_left (fun cs o => if minCon <=? snd o then occ_add pair_eqb cs (Nat.min u (fst o), Nat.max u (fst o)) else cs) oc cs in
    good_occ _ r /\ (forall a b n, In ((a, b), n) r -> a < b) /\ forall a b, a < b -> cnt pair_eqb r (a, b) = cnt pair_eqb cs (a, b) + b2n ((u =? a) && (minCon <=? cnt Nat.eqb oc b)) + b2n ((u =? b) && (minCon <=? cnt Nat.eqb oc a))).
  { clear - H_min. induction oc as [|(w, n) oc IH]; intros cs N NU Gc Lc; cbn [fold_left].
    - split; auto. split; auto. intros a b _. cbn [cnt]. destruct (Nat.leb_spec minCon 0); [lia|]. rewrite !andb_false_r. cbn. lia.
    - cbn [map fst snd] in *. inversion N as [|? ? Nw No]; subst. assert (Wu : w <> u) by (eapply NU; left; reflexivity).
      assert (TAIL : cnt Nat.eqb oc w = 0). { clear - Nw. induction oc as [|(k, m) oc IH]; cbn in *; auto. destruct (Nat.eqb_spec k w); [tauto|apply IH; tauto]. }
      set (cs1 := if minCon <=? n then occ_add pair_eqb cs (Nat.min u w, Nat.max u w) else cs).
      assert (H1 : good_occ _ cs1 /\ (forall a b n, In ((a, b), n) cs1 -> a < b) /\ forall x, cnt pair_eqb cs1 x = cnt pair_eqb cs x + b2n ((minCon <=? n) && pair_eqb (Nat.min u w, Nat.max u w) x)).
      { unfold cs1. destruct (minCon <=? n); cbn [andb].
        - split; [apply occ_add_good; auto; apply pair_eqb_ok|]. split; [|intros; apply occ_add_cnt; apply pair_eqb_ok]. intros a b k I. apply (in_map fst) in I. cbn [fst] in I. apply (occ_add_keys _ pair_eqb) in I as [E|I]; [inversion E; lia|]. apply in_map_iff in I as (((a', b'), k') & E & I). inversion E; subst. eauto.
        - split; [exact Gc|]. split; [exact Lc|]. intros x. cbn. lia. }
      destruct H1 as (G1 & L1 & C1). destruct (IH cs1 No ltac:(intros; eapply NU; right; eauto) G1 L1) as (A1 & A2 & A3). split; auto. split; auto. intros a b Hab. rewrite (A3 a b Hab), C1. cbn [cnt].
      unfold pair_eqb. cbn [fst snd]. destruct (Nat.eqb_spec u a) as [Ea|Na]; destruct (Nat.eqb_spec u b) as [Eb|Nb]; try lia; cbn [andb].
      + subst u. destruct (Nat.eqb_spec w b) as [->|Nwb].
        * rewrite TAIL. destruct (Nat.leb_spec minCon 0); [lia|]. rewrite (proj2 (Nat.eqb_eq (Nat.min a b) a)), (proj2 (Nat.eqb_eq (Nat.max a b) b)) by lia. cbn [andb b2n]. rewrite andb_true_r. lia.
        * assert (X : (Nat.min a w =? a) && (Nat.max a w =? b) = false). { apply andb_false_iff. destruct (Nat.eqb_spec (Nat.min a w) a); auto. right. apply Nat.eqb_neq. lia. } rewrite X, andb_false_r. cbn. lia.
      + subst u. destruct (Nat.eqb_spec w a) as [->|Nwa].
        * rewrite TAIL. destruct (Nat.leb_spec minCon 0); [lia|]. rewrite (proj2 (Nat.eqb_eq (Nat.min b a) a)), (proj2 (Nat.eqb_eq (Nat.max b a) b)) by lia. cbn [andb b2n]. rewrite andb_true_r. lia.
        * assert (X : (Nat.min b w =? a) && (Nat.max b w =? b) = false). { apply andb_false_iff. destruct (Nat.eqb_spec (Nat.min b w) a); auto. right. apply Nat.eqb_neq. lia. } rewrite X, andb_false_r. cbn. lia.
      + assert (X : (Nat.min u w =? a) && (Nat.max u w =? b) = false). { apply andb_false_iff. destruct (Nat.eqb_spec (Nat.min u w) a); auto. right. apply Nat.eqb_neq. lia. } rewrite X, andb_false_r. cbn. lia. }
  destruct (G (occ_of u) cs No NU Gc Lc) as (A1 & A2 & A3). split; auto. split; auto. intros a b Hab. rewrite (A3 a b Hab).
  assert (Q1 : (u =? a) && (minCon <=? cnt Nat.eqb (occ_of u) b) = (u =? a) && strongb a b).
  { destruct (Nat.eqb_spec u a) as [->|]; cbn [andb]; auto. rewrite HS, (proj2 (Nat.eqb_neq b a)) by lia. reflexivity. }
  assert (Q2 : (u =? b) && (minCon <=? cnt Nat.eqb (occ_of u) a) = (u =? b) && strongb b a).
  { destruct (Nat.eqb_spec u b) as [->|]; cbn [andb]; auto. rewrite HS, (proj2 (Nat.eqb_neq a b)) by lia. reflexivity. }
  rewrite Q1, Q2. reflexivity.
Qed.
Lemma connections_ok c : (forall v, In v c -> loc v) -> NoDup c -> exists cs, connections ord g fuel con minCon c = Some cs /\ good_occ _ cs /\ (forall a b n, In ((a, b), n) cs -> a < b) /\
  forall a b, a < b -> cnt pair_eqb cs (a, b) = b2n (smem c a && strongb a b) + b2n (smem c b && strongb b a).
Proof.
  intros HL ND. unfold connections.
  assert (G : forall l cs, (forall v, In v l -> loc v) -> NoDup l -> good_occ _ cs -> (forall a b n, In ((a, b), n) cs -> a < b) -> exists cs', foldM (fun (cs : list ((nat * nat) * nat)) u => ns <- adjacent g u con fuel ;;
     let occ := fold_left (fun o v => if v =? u then o else occ_add Nat.eqb o v) ns ([] : list (nat * nat)) in
     Some (fold_left (fun cs o => if minCon <=? snd o then occ_add pair_eqb cs (Nat.min u (fst o), Nat.max u (fst o)) else cs) occ cs)) l cs = Some cs' /\ good_occ _ cs' /\ (forall a b n, In ((a, b), n) cs' -> a < b) /\
     forall a b, a < b -> cnt pair_eqb cs' (a, b) = cnt pair_eqb cs (a, b) + b2n (smem l a && strongb a b) + b2n (smem l b && strongb b a)).
  { clear c HL ND. induction l as [|u l IH]; intros cs HL ND Gc Lc; cbn [foldM].
    - exists cs. split; auto. split; auto. split; auto. intros. cbn. lia.
    - rewrite (H_adj u) by (apply HL; left; auto). cbn [obind]. cbv zeta. fold (occ_of u). fold (step_u cs u). destruct (step_u_ok cs u Gc Lc) as (A1 & A2 & A3). inversion ND as [|? ? Nu Nl]; subst. destruct (IH (step_u cs u)) as (cs' & E & B1 & B2 & B3); auto; [intros; apply HL; right; auto|].
      exists cs'. split; auto. split; auto. split; auto. intros a b Hab. rewrite (B3 a b Hab), (A3 a b Hab). cbn [smem existsb]. fold (smem l a) (smem l b). apply smem_no in Nu.
      rewrite !(Nat.eqb_sym _ u). destruct (Nat.eqb_spec u a) as [Ea|Na]; destruct (Nat.eqb_spec u b) as [Eb|Nb]; try lia; try subst u; try rewrite Nu; cbn [orb andb b2n]; try rewrite Nu; cbn [andb b2n]; lia. }
  destruct (G (ord c) []) as (cs & E & A1 & A2 & A3); [intros v Hv; apply HL; eapply Permutation_in; [apply H_ord|exact Hv]|eapply Permutation_NoDup; [apply Permutation_sym, H_ord|exact ND]|split; [constructor|intros ? ? []]|intros ? ? ? []|].
  exists cs. split; auto. split; auto. split; auto. intros a b Hab. rewrite (A3 a b Hab). cbn [cnt]. assert (SP : forall x, smem (ord c) x = smem c x). { intros x. apply eq_true_iff_eq. rewrite !smem_in. split; apply Permutation_in; [apply H_ord|apply Permutation_sym, H_ord]. } rewrite !SP. reflexivity.
Qed.
Lemma plan_has_any plan h : plan_ok plan -> h <> 0 -> plan_has g plan h = Some (smem (pl_sending plan) h).
Proof.
  intros HP Hh. destruct h as [|l]; [congruence|]. destruct (Nat.ltb_spec l (nlv g)) as [Hl|Hl].
  - apply plan_has_ok; auto. apply H_loc. exists l. split; auto. unfold getVertex. lia.
  - unfold plan_has. cbn [vlid obind]. rewrite (proj2 (Nat.ltb_ge l (nlv g)) Hl). f_equal. symmetry. apply smem_no. intros I. destruct HP as (m & (_ & ES & EK & _)). rewrite ES in I. apply in_map_iff in I as (x & Ex & Ix). unfold getVertex in Ex. specialize (EK (fst x) (in_map fst _ _ Ix)). lia.
Qed.
Lemma partially_ok plan c : plan_ok plan -> (forall v, In v c -> loc v) -> NoDup c -> exists b, partially_connected ord g fuel con minCon plan c = Some b /\ (b = true <-> settled (pl_sending plan) c).
Proof.
  intros HP HL ND. unfold partially_connected. destruct (connections_ok c HL ND) as (cs & E & Gc & Lc & Cc). rewrite E. cbn [obind].
  assert (LNZ : forall v, loc v -> v <> 0) by (intros v Hv; apply H_loc in Hv as (l & _ & ->); unfold getVertex; lia).
  assert (SNZ : forall u w, loc u -> strongb u w = true -> w <> 0). { intros u w Hu Hs. unfold strongb in Hs. apply andb_true_iff in Hs as (_ & Hs). apply Nat.leb_le in Hs. apply (H_nz u w Hu). apply (count_occ_In Nat.eq_dec). lia. }
  assert (ENT : forall a b n, In ((a, b), n) cs -> a <> 0 /\ b <> 0).
  { intros a b n I. pose proof (Lc a b n I) as Hab. apply (occ_in _ _ pair_eqb_ok cs (a, b) n Gc) in I as (En & Pn). rewrite (Cc a b Hab) in En. destruct (smem c a && strongb a b) eqn:X1.
    - apply andb_true_iff in X1 as (X1 & X2). apply smem_in in X1. split; eauto.
    - destruct (smem c b && strongb b a) eqn:X2; [|cbn in En; lia]. apply andb_true_iff in X2 as (X2 & X3). apply smem_in in X2. split; eauto. }
  set (ok := fun x : (nat * nat) * nat => (snd x =? 2) || smem (pl_sending plan) (fst (fst x)) || smem (pl_sending plan) (snd (fst x))).
  exists (forallb ok cs). split.
  - assert (G : forall l b, (forall x, In x l -> In x cs) -> foldM (fun (b : bool) c => if b then if snd c =? 2 then Some true else x <- plan_has g plan (fst (fst c)) ;; y <- plan_has g plan (snd (fst c)) ;; Some (x || y) else Some false) l b = Some (b && forallb ok l)).
    { induction l as [|((u, w), n) l IH]; intros b HI; cbn [foldM forallb]; [now rewrite andb_true_r|]. destruct b; cbn [andb].
      - destruct (ENT u w n (HI _ (or_introl eq_refl))) as (U & W). cbn [fst snd]. unfold ok at 1. cbn [fst snd]. destruct (n =? 2) eqn:E2; cbn [orb obind andb].
        + rewrite IH by (intros; apply HI; right; auto). reflexivity.
        + rewrite !plan_has_any by auto. cbn [obind]. apply IH. intros; apply HI; right; auto.
      - cbn [obind]. rewrite IH by (intros; apply HI; right; auto). reflexivity. }
    rewrite G by auto. reflexivity.
  - rewrite forallb_forall. split.
    + intros H u w Hu Hs. pose proof Hs as Hs'. unfold strongb in Hs'. apply andb_true_iff in Hs' as (Nw & _). apply negb_true_iff, Nat.eqb_neq in Nw.
      assert (Pu : smem c u = true) by now apply smem_in.
      destruct (Nat.lt_ge_cases u w) as [L|L].
      * assert (I : In ((u, w), cnt pair_eqb cs (u, w)) cs) by (apply (occ_in _ _ pair_eqb_ok cs (u, w) _ Gc); split; auto; rewrite (Cc u w L), Pu, Hs; cbn; lia).
        specialize (H _ I). unfold ok in H. cbn [fst snd] in H. rewrite (Cc u w L), Pu, Hs in H. destruct (smem c w && strongb w u) eqn:X; [left; apply andb_true_iff in X as (X1 & X2); apply smem_in in X1; auto|]. right. cbn in H. apply orb_true_iff in H as [H|H]; apply smem_in in H; auto.
      * assert (L' : w < u) by lia. assert (I : In ((w, u), cnt pair_eqb cs (w, u)) cs) by (apply (occ_in _ _ pair_eqb_ok cs (w, u) _ Gc); split; auto; rewrite (Cc w u L'), Pu, Hs; cbn; lia).
        specialize (H _ I). unfold ok in H. cbn [fst snd] in H. rewrite (Cc w u L'), Pu, Hs in H. destruct (smem c w && strongb w u) eqn:X; [left; apply andb_true_iff in X as (X1 & X2); apply smem_in in X1; auto|]. right. cbn in H. apply orb_true_iff in H as [H|H]; apply smem_in in H; auto.
    + intros H ((a, b), n) I. pose proof (Lc a b n I) as Hab. apply (occ_in _ _ pair_eqb_ok cs (a, b) n Gc) in I as (En & Pn). rewrite (Cc a b Hab) in En. unfold ok. cbn [fst snd]. destruct (smem c a && strongb a b) eqn:X1.
      * apply andb_true_iff in X1 as (X1 & X2). apply smem_in in X1. destruct (H a b X1 X2) as [(Y1 & Y2)|[Y|Y]]; [|apply smem_in in Y; rewrite Y; now rewrite orb_true_r|apply smem_in in Y; rewrite Y; now rewrite orb_true_r].
        apply smem_in in Y1. rewrite Y1, Y2 in En. cbn in En. subst n. reflexivity.
      * destruct (smem c b && strongb b a) eqn:X2; [|cbn in En; lia]. apply andb_true_iff in X2 as (X2 & X3). apply smem_in in X2. destruct (H b a X2 X3) as [(Y1 & Y2)|[Y|Y]]; [|apply smem_in in Y; rewrite Y; now rewrite orb_true_r|apply smem_in in Y; rewrite Y; now rewrite orb_true_r].
        apply smem_in in Y1. rewrite Y1, Y2 in X1. discriminate.
Qed.
(** *** the loop *)
Definition plan_d (P : Z -> Prop) (plan : mplan) : Prop := exists m, PInv g plan m /\ forall l d, fm_get m l = Some d -> P d.
Lemma plan_d_ok P plan : plan_d P plan -> plan_ok plan. Proof. intros (m & H & _). exists m. exact H. Qed.
Lemma plan_d_ops P ops : forall plan plan', (forall o, In o ops -> exists h d, o = Ins (lid_of h) d /\ loc h /\ d <> (-1)%Z /\ P d) -> plan_d P plan -> foldM (do_op g) ops plan = Some plan' -> plan_d P plan'.
Proof.
  induction ops as [|o ops IH]; intros plan plan' HO HP E; cbn [foldM] in E; [inversion E; subst; auto|]. destruct (HO o (or_introl eq_refl)) as (h & d & -> & Hh & Hd & HPd). apply H_loc in Hh as (l & Hl & ->).
  unfold lid_of in E. replace (getVertex l - 1) with l in E by (unfold getVertex; lia). cbn [do_op] in E. destruct HP as (m & HI & HM). destruct (inv_insert g plan m l d HI Hl Hd) as (p' & Ei & HI'). rewrite Ei in E. cbn [obind] in E. eapply IH; [intros; apply HO; right; eauto| |exact E].
  exists (fm_put m l d). split; auto. intros k x Hk. rewrite fm_get_put in Hk. destruct (l =? k); [inversion Hk; subst; auto|eauto].
Qed.
Lemma plan_d_dest P plan v : plan_d P plan -> In v (pl_sending plan) -> P (dest_of plan v).
Proof.
  intros (m & HI & HM) Hv. pose proof HI as (_ & ES & EK & _ & EA). rewrite ES in Hv. apply in_map_iff in Hv as (x & <- & Hx). assert (I : In (fst x) (map fst m)) by now apply in_map. specialize (EK _ I).
  unfold dest_of, plan_get. rewrite get_vtag_local, EA by auto. destruct (fm_get m (fst x)) as [d|] eqn:F; [eauto|]. apply fm_get_in in I. congruence.
Qed.
(** a part that a vertex can be sent to: a target, or the owner of a vertex of an edge of this part *)
Definition can_go (d : Z) : Prop := d <> (-1)%Z /\ (chas targets d = true \/ exists e v, eok e /\ In v (pn e) /\ ow v = d /\ d <> self g).
Hypothesis H_ow1 : forall e v, eok e -> In v (pn e) -> ow v <> (-1)%Z.
Hypothesis H_inc : forall e v, eok e -> In v (pn e) -> ow v = self g -> (exists u, In u (pn e) /\ ow u <> self g) -> In e (il 0 v).
Lemma shared_can plan c d : plan_d can_go plan -> (forall v, In v c -> loc v) -> 0 < shared plan c d -> can_go d.
Proof.
  intros HP HL HS. unfold shared in HS. destruct (filter (tch plan d) (edges_of 0 (ord c))) as [|e l] eqn:F; [cbn in HS; lia|]. assert (I : In e (filter (tch plan d) (edges_of 0 (ord c)))) by (rewrite F; left; auto). apply filter_In in I as (I & T).
  assert (Ek : eok e). { apply addall_in in I as [[]|I]. apply in_flat_map in I as (v & Hv & He). eapply H_eok; [|exact He]. apply HL. eapply Permutation_in; [apply H_ord|exact Hv]. }
  unfold tch in T. apply existsb_exists in T as (v & Hv & T). destruct (Z.eqb_spec (ow v) (self g)) as [Eo|No].
  - apply andb_true_iff in T as (T1 & T2). apply smem_in in T1. apply Z.eqb_eq in T2. subst d. apply (plan_d_dest _ _ _ HP T1).
  - apply Z.eqb_eq in T. subst d. split; [eapply H_ow1; eauto|]. right. exists e, v. auto.
Qed.
(** the calls of the pass over the waiting edges, in order: plan is the plan before *)
Inductive moves (lf : nat -> list nat) : mplan -> list nat -> list plan_op -> Prop :=
| mv_nil : forall plan, moves lf plan [] []
| mv_go : forall plan plan1 e l d m, settled (pl_sending plan) (lf e) -> can_go d -> (forall d', shared plan (lf e) d' <= shared plan (lf e) d) ->
    foldM (do_op g) (ins_all (ord (lf e)) d) plan = Some plan1 -> moves lf plan1 l m -> moves lf plan (e :: l) (ins_all (ord (lf e)) d ++ m)
| mv_stay : forall plan e l m, ~ settled (pl_sending plan) (lf e) -> moves lf plan l m -> moves lf plan (e :: l) m.
Definition disc_step (st : sel) (i : nat) : option sel :=
  e <- sa_get (s_q st) i ;;
  let cav := match cav_find (s_cav st) e with Some c => c | None => [] end in
  peers <- getCavityPeers ord pord g fuel (s_plan st) cav ;;
  b <- partially_connected ord g fuel con minCon (s_plan st) cav ;;
  if b then p <- hd_error peers ;; '(plan', _) <- addCavity val ord g gw fuel cav p (s_plan st) dim ;;
            Some (mkSel (s_q st) (s_cav st) (s_sending st) plan' (s_w st))
  else Some st.
Lemma disc_loop (lf : nat -> list nat) : forall r l0 st, (forall i e, nth_error (l0 ++ r) i = Some e -> aget (sa_cur (s_q st)) i = Some e) ->
  (forall e, In e r -> eok e /\ cav_find (s_cav st) e = Some (lf e) /\ NoDup (lf e) /\ (forall v, In v (lf e) -> In v (cavity_of e)) /\ lf e <> [] /\ exists u, In u (pn e) /\ ow u <> self g) ->
  plan_d can_go (s_plan st) ->
  exists st' mv, foldM disc_step (seq (length l0) (length r)) st = Some st' /\ moves lf (s_plan st) r mv /\ foldM (do_op g) mv (s_plan st) = Some (s_plan st') /\
    plan_d can_go (s_plan st') /\ s_sending st' = s_sending st /\ s_w st' = s_w st.
Proof.
  induction r as [|e r IH]; intros l0 st HG HE HP; cbn [length seq foldM].
  - exists st, []. cbn. split; auto. split; [constructor|]. auto.
  - assert (E0 : sa_get (s_q st) (length l0) = Some e). { apply HG. rewrite nth_error_app2, Nat.sub_diag by lia. reflexivity. }
    destruct (HE e (or_introl eq_refl)) as (Ek & Ec & NDe & Ce & Le & u & Iu & Nu). unfold disc_step at 1. rewrite E0. cbn [obind]. rewrite Ec. cbv zeta.
    assert (HL : forall v, In v (lf e) -> loc v) by (intros v Hv; eapply cavity_loc; eauto). pose proof (plan_d_ok _ _ HP) as HPo.
    destruct (peers_spec (s_plan st) (lf e) HPo HL) as (peers & Ep & P1 & P2 & P3). rewrite Ep. cbn [obind]. destruct (partially_ok (s_plan st) (lf e) HPo HL NDe) as (b & Eb & Hb). rewrite Eb. cbn [obind].
    assert (LL : length (l0 ++ [e]) = S (length l0)) by (rewrite app_length; cbn; lia). assert (EA : (l0 ++ [e]) ++ r = l0 ++ e :: r) by (rewrite <- app_assoc; reflexivity).
    destruct b.
    + destruct peers as [|d peers].
      { exfalso. assert (X : 0 < shared (s_plan st) (lf e) (ow u)); [|now apply (P2 _ X)]. unfold shared. assert (I : In e (filter (tch (s_plan st) (ow u)) (edges_of 0 (ord (lf e))))).
        { apply filter_In. split.
          - apply addall_in. right. destruct (lf e) as [|v lv] eqn:El; [congruence|]. apply in_flat_map. exists v. split; [eapply Permutation_in; [apply Permutation_sym, H_ord|left; auto]|]. assert (Iv : In v (cavity_of e)) by (apply Ce; left; auto). apply cavity_in in Iv as (I1 & I2). apply H_inc; eauto.
          - unfold tch. apply existsb_exists. exists u. split; auto. rewrite (proj2 (Z.eqb_neq _ _) Nu). apply Z.eqb_refl. }
        destruct (filter (tch (s_plan st) (ow u)) (edges_of 0 (ord (lf e)))); [destruct I|cbn; lia]. }
      cbn [hd_error obind]. assert (CG : can_go d) by (apply (shared_can (s_plan st) (lf e)); auto; apply P1; left; auto).
      destruct (addCavity_ok dim d (lf e) (s_plan st) (proj1 CG) H_dim HL HPo) as (plan' & w & vs & Ea & _ & Es & _ & Ev & _ & Ed & _ & Ein & _). rewrite Ea. cbn [obind].
      destruct (IH (l0 ++ [e]) (mkSel (s_q st) (s_cav st) (s_sending st) plan' (s_w st))) as (st' & mv & E1 & M1 & F1 & D1 & G1 & W1).
      * intros i x Hx. cbn [s_q]. apply HG. now rewrite <- EA.
      * intros x Hx. cbn [s_cav]. apply HE. right; auto.
      * cbn [s_plan]. eapply plan_d_ops; [|exact HP|exact Ed]. intros o Ho. unfold ins_all in Ho. apply in_map_iff in Ho as (h & <- & Hh). exists h, d. split; auto. split; [|split; [apply CG|auto]]. apply HL. eapply Permutation_in; [apply H_ord|exact Hh].
      * rewrite LL in E1. exists st', (ins_all (ord (lf e)) d ++ mv). split; [exact E1|]. split; [apply (mv_go lf (s_plan st) plan'); auto; [now apply Hb|apply (P3 d peers eq_refl)]|]. split; [rewrite foldM_app, Ed; exact F1|auto].
    + destruct (IH (l0 ++ [e]) st) as (st' & mv & E1 & M1 & F1 & D1 & G1 & W1); auto.
      * intros i x Hx. apply HG. now rewrite <- EA.
      * intros x Hx. apply HE. right; auto.
      * rewrite LL in E1. exists st', mv. split; [exact E1|]. split; [apply mv_stay; auto; intros X; assert (Y : false = true); [|discriminate]; now apply Hb|auto 10].
Qed.
Lemma disc_keeps st i st' : disc_step st i = Some st' -> s_q st' = s_q st /\ s_cav st' = s_cav st.
Proof.
  unfold disc_step. destruct (sa_get (s_q st) i) as [e|]; [|discriminate]. cbn [obind]. cbv zeta. destruct (getCavityPeers _ _ _ _ _ _) as [peers|]; [|discriminate]. cbn [obind]. destruct (partially_connected _ _ _ _ _ _ _) as [b|]; [|discriminate]. cbn [obind].
  destruct b; [|intros E; inversion E; auto]. destruct (hd_error peers) as [p|]; [|discriminate]. cbn [obind]. destruct (addCavity _ _ _ _ _ _ _ _ _) as [(plan', w)|]; [|discriminate]. cbn [obind]. intros E; inversion E; auto.
Qed.
Lemma disc_empty st i e : sa_get (s_q st) i = Some e -> cav_find (s_cav st) e = Some [] -> disc_step st i = None.
Proof.
  intros E0 Ec. unfold disc_step. rewrite E0. cbn [obind]. rewrite Ec. cbv zeta. assert (O0 : ord [] = []) by (apply Permutation_nil, Permutation_sym, H_ord). assert (P0 : pord [] = []) by (apply Permutation_nil, Permutation_sym, H_pord).
  unfold getCavityPeers, cavity_edges, partially_connected, connections. rewrite O0. cbn [foldM obind]. rewrite P0. reflexivity.
Qed.
Lemma disc_none : forall is st i e, In i is -> sa_get (s_q st) i = Some e -> cav_find (s_cav st) e = Some [] -> foldM disc_step is st = None.
Proof.
  induction is as [|j is IH]; intros st i e Hi E0 Ec; [destruct Hi|]. cbn [foldM]. destruct (disc_step st j) as [st1|] eqn:E1; [|reflexivity]. cbn [obind]. destruct (disc_keeps _ _ _ E1) as (Q1 & C1). destruct Hi as [<-|Hi].
  - rewrite (disc_empty st j e E0 Ec) in E1. discriminate.
  - apply (IH st1 i e Hi); congruence.
Qed.
Definition left_of (st : sel) (e : nat) : list nat := filter (fun v => negb (smem (pl_sending (s_plan st)) v)) (cavity_of e).
Theorem disconnected_ok A cs l st : 2 <= minCon -> sel_ok A cs l st -> exact st l -> (forall e, In e l -> exists u, In u (pn e) /\ ow u <> self g) ->
  ((exists e, In e l /\ left_of st e = []) -> selectDisconnected val ord pord g gw fuel con minCon dim st = None) /\
  ((forall e, In e l -> left_of st e <> []) -> exists st' mv, selectDisconnected val ord pord g gw fuel con minCon dim st = Some st' /\ moves (left_of st) (s_plan st) l mv /\
     foldM (do_op g) (cs ++ mv) p0 = Some (s_plan st') /\ plan_ok (s_plan st') /\ s_w st' = s_w st).
Proof.
  intros H2 (HC & HL & (Hn & Hi) & HE & HK & HK2) HX HQ. unfold selectDisconnected. destruct (Nat.leb_spec minCon 1); [lia|]. cbv zeta. change (sa_size (sa_start (s_q st))) with (sa_nsize (s_q st)). rewrite Hn.
  set (st0 := mkSel (sa_start (s_q st)) (s_cav st) (s_sending st) (s_plan st) (s_w st)).
  assert (CUR : forall i e, nth_error l i = Some e -> aget (sa_cur (s_q st0)) i = Some e). { intros i e Hie. cbn [st0 s_q sa_start sa_cur]. rewrite Hi; auto. apply nth_error_Some. congruence. }
  split.
  - intros (e & He & Ee). apply In_nth_error in He as (i & Hie). apply (disc_none (seq 0 (length l)) st0 i e).
    + apply in_seq. assert (i < length l) by (apply nth_error_Some; congruence). lia.
    + apply CUR. exact Hie.
    + cbn [st0 s_cav]. rewrite (HX e (nth_error_In _ _ Hie)). f_equal. exact Ee.
  - intros HN. destruct HL as (HPo & Hcs & Hgood & _).
    assert (HPd : plan_d can_go (s_plan st)).
    { apply (plan_d_ops can_go cs p0); auto.
      - intros o Ho. destruct (Hgood o Ho) as (e & v & d & -> & He & Hv & Hd). exists v, d. split; auto. split; [eapply cavity_loc; eauto|]. split; [auto|]. split; auto.
      - destruct H_p0 as (m & HI). exists m. split; auto. intros k d Hk. exfalso. pose proof HI as (_ & ES & _). rewrite H_empty in ES. destruct m; [discriminate|discriminate]. }
    destruct (disc_loop (left_of st) l [] st0) as (st' & mv & E & M & F & D & G & W); auto.
    + intros e He. split; [auto|]. split; [exact (HX e He)|]. split; [apply NoDup_filter, addall_nodup; constructor|]. split; [intros v Hv; now apply filter_In in Hv|]. split; auto.
    + cbn [length] in E. exists st', mv. split; [exact E|]. split; auto. split; [rewrite foldM_app, Hcs; exact F|]. split; [eapply plan_d_ok; eauto|]. exact W.
Qed.
End Disc.
End Sel.
