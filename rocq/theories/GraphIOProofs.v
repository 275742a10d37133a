(** Proofs about GraphIOModel.v: the bytes of a saved graph, and what loading them constructs. *)
From Verif Require Import Base GraphModel GraphSpec CsrProofs ConstructProofs AccessProofs AccessProofs2 GraphTop GraphTop2 PcuMsgModel PcuIOModel PcuIOProps MetricsModel SidesProofs GraphIOModel.
Local Open Scope nat_scope.

Definition erec := (Z * Z * list Z)%type.
Definition to_ty (es : list erec) : type_input := (map (fun e => (fst (fst e), snd e)) es, map (fun e => snd (fst e)) es).

Definition in32 (z : Z) : Prop := (0 <= z < 2 ^ 32)%Z.
Lemma u32_id z : in32 z -> u32 z = z. Proof. apply Z.mod_small. Qed.
Lemma u32_in z : in32 (u32 z). Proof. apply Z.mod_pos_bound. reflexivity. Qed.
Lemma s32_id z : (0 <= z < 2 ^ 31)%Z -> s32 z = z.
Proof. intros H. unfold s32. destruct (Z.ltb_spec z (2 ^ 31)); lia. Qed.
Lemma map_u32 l : Forall in32 l -> map u32 l = l.
Proof. induction 1; cbn [map]; [auto|]. now rewrite u32_id, IHForall. Qed.

Section S.
Variables h h' : host.
Variables bits unbits : Z -> Z.
Definition okd (w : Z) : Prop := (0 <= bits w < 2 ^ 64)%Z /\ unbits (bits w) = w.

Definition E (z : Z) : list byte := store Big 4 z.
Definition D (ws : list Z) : list byte := concat (map (store Big 8) (map bits ws)).

Lemma put_u_eq f z : put_u h f z = Some (f ++ E (u32 z)).
Proof. unfold put_u, write_unsigneds. rewrite write_words_big by apply swap_32_rev. cbn [map concat]. now rewrite app_nil_r. Qed.
Lemma put_us_eq f ps : write_unsigneds h f ps = Some (f ++ flat_map E ps).
Proof. unfold write_unsigneds. rewrite write_words_big by apply swap_32_rev. now rewrite flat_map_concat_map. Qed.
Lemma put_d_eq f ws : put_d h bits f ws = Some (f ++ D ws).
Proof. unfold put_d, write_doubles. now rewrite write_words_big by apply swap_64_rev. Qed.
Lemma get_u_eq z rest : in32 z -> get_u h' (E z ++ rest) = Some (z, rest).
Proof.
  intros Hz. unfold get_u. pose proof (read_words_big 4 swap_32 swap_32_rev h' [z] rest) as R.
  cbn [map concat length] in R. rewrite app_nil_r in R. unfold read_unsigneds, E. rewrite R; [reflexivity|].
  intros w [<-|[]]. exact Hz.
Qed.
Lemma get_d_eq ws rest n : Forall okd ws -> n = length ws -> get_d h' unbits n (D ws ++ rest) = Some (ws, rest).
Proof.
  intros Hw ->. unfold get_d, read_doubles, D. pose proof (read_words_big 8 swap_64 swap_64_rev h' (map bits ws) rest) as R.
  rewrite map_length in R. rewrite R.
  - cbn [obind]. rewrite map_map. repeat f_equal. rewrite <- (map_id ws) at 2. apply map_ext_in.
    intros w Iw. rewrite Forall_forall in Hw. apply (Hw w Iw).
  - intros w Iw. apply in_map_iff in Iw as (x & <- & Ix). rewrite Forall_forall in Hw. apply (Hw x Ix).
Qed.
Lemma E_len z : length (E z) = 4. Proof. apply store_length. Qed.

Lemma read_n_eq A (rd : list byte -> option (A * list byte)) (enc : A -> list byte) l rest n :
  (forall x r, In x l -> rd (enc x ++ r) = Some (x, r)) -> n = length l -> read_n rd n (flat_map enc l ++ rest) = Some (l, rest).
Proof.
  intros H ->. induction l as [|x l IH]; [reflexivity|]. cbn [length read_n flat_map]. rewrite <- app_assoc.
  rewrite H by (left; auto). cbn [obind]. rewrite IH by (intros; apply H; right; auto). reflexivity.
Qed.

Definition BV (p : Z * Z) : list byte := E (fst p) ++ D [snd p].
Definition BC (c : coord3) : list byte := D [fst (fst c); snd (fst c); snd c].
Definition BE (e : erec) : list byte := E (fst (fst e)) ++ D [snd (fst e)] ++ E (Z.of_nat (length (snd e))) ++ flat_map E (snd e).
Definition BT (t : nat) (es : list erec) : list byte := E (Z.of_nat t) ++ E (Z.of_nat (length es)) ++ flat_map BE es.
Fixpoint BTs (t : nat) (tl : list (list erec)) : list byte := match tl with [] => [] | es :: r => BT t es ++ BTs (S t) r end.
Definition BG (l : zmap Z) : list byte := E (Z.of_nat (length l)) ++ flat_map (fun p => E (fst p) ++ E (snd p)) l.
Definition Bcs (cs : option (list coord3)) : list byte := match cs with Some c => E 1 ++ flat_map BC c | None => E 0 end.
Definition file_of (hg : bool) (vs : list (Z * Z)) (cs : option (list coord3)) (tl : list (list erec)) (own : zmap Z) : list byte :=
  E (if hg then 1 else 0)%Z ++ E (Z.of_nat (length vs)) ++ flat_map BV vs ++ Bcs cs ++ E (Z.of_nat (length tl)) ++ BTs 0 tl ++ BG own.

Definition ok_vrec (p : Z * Z) : Prop := in32 (fst p) /\ okd (snd p).
Definition ok_coord (c : coord3) : Prop := okd (fst (fst c)) /\ okd (snd (fst c)) /\ okd (snd c).
Definition ok_erec (e : erec) : Prop := in32 (fst (fst e)) /\ okd (snd (fst e)) /\ in32 (Z.of_nat (length (snd e))) /\ Forall in32 (snd e).
Definition ok_type (es : list erec) : Prop := in32 (Z.of_nat (length es)) /\ Forall ok_erec es.

Lemma read_vertex_eq p r : ok_vrec p -> read_vertex h' unbits (BV p ++ r) = Some (p, r).
Proof.
  destruct p as [v w]. intros [H1 H2]. unfold read_vertex, BV. cbn [fst snd] in *. rewrite <- app_assoc, get_u_eq by auto. cbn [obind].
  rewrite get_d_eq; auto.
Qed.
Lemma read_coord_eq c r : ok_coord c -> read_coord h' unbits (BC c ++ r) = Some (c, r).
Proof.
  destruct c as [[x y] z]. intros (H1 & H2 & H3). unfold read_coord, BC. cbn [fst snd] in *. rewrite get_d_eq; auto.
Qed.
Lemma read_edge_eq e r : ok_erec e -> read_edge h' unbits (BE e ++ r) = Some (e, r).
Proof.
  destruct e as [[gid w] ps]. intros (H1 & H2 & H3 & H4). unfold read_edge, BE. cbn [fst snd] in *. rewrite <- !app_assoc.
  rewrite get_u_eq by auto. cbn [obind]. rewrite get_d_eq by auto. cbn [obind]. rewrite get_u_eq by auto. cbn [obind].
  rewrite (read_n_eq Z (get_u h') E); [reflexivity| |now rewrite Nat2Z.id].
  intros x s Hx. apply get_u_eq. rewrite Forall_forall in H4. auto.
Qed.
Lemma readEdges_eq t es r : in32 (Z.of_nat t) -> ok_type es -> readEdges h' unbits (BT t es ++ r) = Some (Z.of_nat t, es, r).
Proof.
  intros Ht (H1 & H2). unfold readEdges, BT. rewrite <- !app_assoc. rewrite get_u_eq by auto. cbn [obind].
  rewrite get_u_eq by auto. cbn [obind]. rewrite (read_n_eq _ (read_edge h' unbits) BE); [reflexivity| |now rewrite Nat2Z.id].
  intros x s Hx. apply read_edge_eq. rewrite Forall_forall in H2. auto.
Qed.
Lemma readGhosts_eq (own : zmap Z) : in32 (Z.of_nat (length own)) -> (forall p, In p own -> in32 (fst p) /\ in32 (snd p)) ->
  readGhosts h' (BG own) = Some (fold_left (fun m p => zput m (fst p) (s32 (snd p))) own [], []).
Proof.
  intros H1 H2. unfold readGhosts, BG. rewrite get_u_eq by auto. cbn [obind].
  pose proof (read_n_eq _ (read_ghost h') (fun p => E (fst p) ++ E (snd p)) own [] (Z.to_nat (Z.of_nat (length own)))) as R.
  rewrite app_nil_r in R. rewrite R; [reflexivity| |now rewrite Nat2Z.id].
  intros [v o] s Hx. destruct (H2 _ Hx) as (Hv & Ho). cbn [fst snd] in *. unfold read_ghost. rewrite <- app_assoc.
  rewrite get_u_eq by auto. cbn [obind]. rewrite get_u_eq by auto. reflexivity.
Qed.
Lemma readVertices_eq vs cs r : in32 (Z.of_nat (length vs)) -> Forall ok_vrec vs ->
  match cs with Some c => length c = length vs /\ Forall ok_coord c | None => True end ->
  readVertices h' unbits (E (Z.of_nat (length vs)) ++ flat_map BV vs ++ Bcs cs ++ r) = Some (vs, cs, r).
Proof.
  intros H1 H2 H3. unfold readVertices. rewrite get_u_eq by auto. cbn [obind]. rewrite Nat2Z.id.
  rewrite (read_n_eq _ (read_vertex h' unbits) BV); auto.
  2:{ intros x s Hx. apply read_vertex_eq. rewrite Forall_forall in H2. auto. }
  cbn [obind]. destruct cs as [c|]; cbn [Bcs].
  - destruct H3 as (Lc & H3). rewrite <- app_assoc, get_u_eq by (split; lia). cbn [obind Z.eqb].
    change (Pos.eqb 1 1) with true. cbn iota.
    rewrite (read_n_eq _ (read_coord h' unbits) BC); auto.
    intros x s Hx. apply read_coord_eq. rewrite Forall_forall in H3. auto.
  - rewrite get_u_eq by (split; lia). reflexivity.
Qed.

Lemma load_types_eq nt : (nt < 2 ^ 32)%Z -> forall tl t fuel g rest, (Z.of_nat (t + length tl) = nt)%Z -> length tl <= fuel ->
  Forall ok_type tl ->
  load_types h' unbits fuel (Z.of_nat t) nt g (BTs t tl ++ rest) = (g' <- foldM call_constructEdges (map to_ty tl) g ;; Some (g', rest)).
Proof.
  intros Hn. induction tl as [|es tl IH]; intros t fuel g rest Ht Hf Hok.
  - cbn [length] in Ht. destruct fuel; cbn [load_types BTs app map foldM obind]; (destruct (Z.ltb_spec (Z.of_nat t) nt); [lia|reflexivity]).
  - inversion Hok; subst. destruct fuel as [|fuel]; [cbn in Hf; lia|]. cbn [load_types BTs].
    cbn [length] in *. destruct (Z.ltb_spec (Z.of_nat t) (Z.of_nat (t + S (length tl)))) as [_|X]; [|lia].
    rewrite <- app_assoc, readEdges_eq; auto. 2:{ split; lia. }
    cbn [obind map foldM]. unfold call_constructEdges at 1, to_ty at 1 2 3 4. unfold pins_of. cbn [fst snd].
    rewrite !map_map. cbn [fst snd].
    match goal with |- context [constructEdges ?a ?b ?c ?d ?e] => destruct (constructEdges a b c d e) as [[g1 k]|]; [|reflexivity] end.
    cbn [obind]. rewrite u32_id by (split; lia). replace (Z.of_nat t + 1)%Z with (Z.of_nat (S t)) by lia.
    apply IH; auto; lia.
Qed.

Lemma constructVerts_nlv me hg vs ws g : constructVerts me hg vs ws = Some g -> nlv g = length vs.
Proof. unfold constructVerts. destruct (foldM _ _ _) as [[[a b] c]|]; intros X; inversion X; reflexivity. Qed.

Lemma load_eq me hg vs cs tl own : in32 (Z.of_nat (length vs)) -> Forall ok_vrec vs ->
  match cs with Some c => length c = length vs /\ Forall ok_coord c | None => True end ->
  length tl <= 7 -> Forall ok_type tl -> in32 (Z.of_nat (length own)) -> (forall p, In p own -> in32 (fst p) /\ in32 (snd p)) ->
  loadFromFile h' unbits me (file_of hg vs cs tl own) =
  (g <- build_part me hg (map fst vs) (map snd vs) (map to_ty tl) (fold_left (fun m p => zput m (fst p) (s32 (snd p))) own []) ;; Some (g, cs)).
Proof.
  intros H1 H2 H3 H4 H5 H6 H7. unfold loadFromFile, file_of, readHeader.
  rewrite get_u_eq by (destruct hg; split; lia). cbn [obind].
  rewrite readVertices_eq by auto. cbn [obind]. unfold build_part, build_graph.
  replace (negb (Z.eqb (if hg then 1 else 0) 0)) with hg by (destruct hg; reflexivity).
  destruct (constructVerts me hg (map fst vs) (map snd vs)) as [g0|] eqn:EV; [|reflexivity]. cbn [obind].
  pose proof (constructVerts_nlv _ _ _ _ _ EV) as Ln. rewrite map_length in Ln.
  assert (EC : (match cs with Some c => c' <- setCoords g0 c ;; Some (Some c') | None => Some None end) = Some cs).
  { destruct cs as [c|]; auto. destruct H3 as (Lc & _). unfold setCoords. rewrite Ln, <- Lc.
    assert (G : forall (c0 c1 : list coord3), mapM (fun i => nth_error (c0 ++ c1) i) (seq (length c0) (length c1)) = Some c1).
    { intros c0 c1. revert c0. induction c1 as [|x c1 IH]; intros c0; [reflexivity|]. cbn [length seq mapM].
      rewrite nth_error_app2, Nat.sub_diag by lia. cbn [nth_error obind].
      specialize (IH (c0 ++ [x])). rewrite <- app_assoc, app_length, Nat.add_1_r in IH. cbn [app] in IH. rewrite IH. reflexivity. }
    specialize (G [] c). cbn [length app] in G. match goal with |- obind ?x _ = _ => change x with (mapM (fun i => nth_error c i) (seq 0 (length c))) end. rewrite G. reflexivity. }
  rewrite EC. cbn [obind]. rewrite get_u_eq by (split; lia). cbn [obind].
  pose proof (load_types_eq (Z.of_nat (length tl)) ltac:(lia) tl 0) as LT. cbn [Z.of_nat] in LT.
  rewrite LT; auto.
  2:{ rewrite !app_length, !E_len. destruct cs; cbn [Bcs]; rewrite ?app_length, ?E_len; lia. }
  destruct (foldM call_constructEdges (map to_ty tl) g0) as [g1|] eqn:EF; [|reflexivity]. cbn [obind].
  rewrite readGhosts_eq by auto. cbn [obind].
  destruct (constructGhosts_owners g1 _) as [g2|]; reflexivity.
Qed.

(** ** saving *)
Definition note (po : Z -> Z) (me : Z) (m : zmap Z) (v : Z) : zmap Z := if Z.eqb (po v) me then m else zput m (u32 v) (po v).
Definition seen_as (g : graph) (po : Z -> Z) (e : nat) (r : erec) : Prop :=
  egid g e = Some (fst (fst r)) /\ eweight g e = Some (snd (fst r)) /\ edegree g e = Some (length (snd r)) /\
  exists it hs, pins_begin g e = Some it /\ iter_n (pit_step g) (length (snd r)) it = Some hs /\
    Forall2 (fun x v => vgid g x = Some v /\ owner g x = Some (po v)) hs (snd r).
Definition in_range_rec (r : erec) : Prop := in32 (fst (fst r)) /\ in32 (Z.of_nat (length (snd r))) /\ Forall in32 (snd r).

Lemma write_pins_eq g po ps : forall it hs owns, iter_n (pit_step g) (length ps) it = Some hs ->
  Forall2 (fun x v => vgid g x = Some v /\ owner g x = Some (po v)) hs ps ->
  write_pins g (length ps) it owns = Some (map u32 ps, fold_left (note po (self g)) ps owns).
Proof.
  induction ps as [|v ps IH]; intros it hs owns HI HF; [reflexivity|]. cbn [length iter_n write_pins] in *.
  destruct (pit_step g it) as [[x it1]|]; [|discriminate]. cbn [obind] in *.
  destruct (iter_n (pit_step g) (length ps) it1) as [r|] eqn:EI; [|discriminate]. cbn [obind] in HI. inversion HI; subst hs.
  inversion HF as [|? ? ? ? (Ev & Eo) HF']; subst. rewrite Ev. cbn [obind]. rewrite Eo. cbn [obind].
  rewrite (IH _ _ _ EI HF'). cbn [obind map fold_left]. do 3 f_equal. unfold note. destruct (Z.eqb (po v) (self g)); reflexivity.
Qed.
Lemma write_edge_eq g po f owns e r : seen_as g po e r -> in_range_rec r ->
  write_edge h bits g (f, owns) e = Some (f ++ BE r, fold_left (note po (self g)) (snd r) owns).
Proof.
  destruct r as [[gid w] ps]. intros (H1 & H2 & H3 & it & hs & H4 & H5 & H6) (R1 & R2 & R3). cbn [fst snd] in *. unfold write_edge.
  rewrite H1. cbn [obind]. rewrite H2. cbn [obind]. rewrite H3. cbn [obind]. rewrite H4. cbn [obind].
  rewrite (write_pins_eq g po ps it hs owns H5 H6). cbn [obind]. rewrite put_u_eq. cbn [obind]. rewrite put_d_eq. cbn [obind].
  rewrite put_u_eq. cbn [obind]. rewrite put_us_eq. cbn [obind]. rewrite !u32_id, map_u32 by auto. unfold BE. cbn [fst snd].
  now rewrite <- !app_assoc.
Qed.
Lemma write_edges_eq g po es rs : Forall2 (seen_as g po) es rs -> Forall in_range_rec rs -> forall f owns,
  foldM (write_edge h bits g) es (f, owns) = Some (f ++ flat_map BE rs, fold_left (note po (self g)) (flat_map snd rs) owns).
Proof.
  induction 1 as [|e r es rs H1 H2 IH]; intros HI f owns; cbn [foldM flat_map fold_left]; [now rewrite app_nil_r|].
  inversion HI; subst. rewrite (write_edge_eq g po) with (r := r) by auto. cbn [obind]. rewrite IH by auto. rewrite <- app_assoc, fold_left_app. reflexivity.
Qed.
Definition type_seen (g : graph) (po : Z -> Z) (fuel t : nat) (rs : list erec) : Prop :=
  num_edges g t = Some (length rs) /\ exists es, all_edges g t fuel = Some es /\ Forall2 (seen_as g po) es rs.
Lemma writeEdges_eq g po fuel t rs f owns : type_seen g po fuel t rs -> Forall in_range_rec rs -> in32 (Z.of_nat (length rs)) -> in32 (Z.of_nat t) ->
  writeEdges h bits fuel g (f, owns) t = Some (f ++ BT t rs, fold_left (note po (self g)) (flat_map snd rs) owns).
Proof.
  intros (H1 & es & H2 & H3) HI HL Ht. unfold writeEdges. rewrite put_u_eq. cbn [obind]. rewrite H1. cbn [obind]. rewrite put_u_eq. cbn [obind].
  rewrite H2. cbn [obind]. rewrite (write_edges_eq g po es rs H3 HI), !u32_id by auto. unfold BT. now rewrite <- !app_assoc.
Qed.
Lemma write_types_eq g po fuel tl : forall t f owns, (forall k rs, nth_error tl k = Some rs -> type_seen g po fuel (t + k) rs) ->
  Forall (fun rs => Forall in_range_rec rs /\ in32 (Z.of_nat (length rs))) tl -> t + length tl <= 7 ->
  foldM (writeEdges h bits fuel g) (seq t (length tl)) (f, owns) =
  Some (f ++ BTs t tl, fold_left (note po (self g)) (flat_map (fun rs => flat_map snd rs) tl) owns).
Proof.
  induction tl as [|rs tl IH]; intros t f owns HS HI HL; cbn [length seq foldM BTs flat_map fold_left]; [now rewrite app_nil_r|].
  inversion HI as [|? ? (HI1 & HI2) HI3]; subst. cbn [length] in HL.
  pose proof (HS 0 rs eq_refl) as H0. rewrite Nat.add_0_r in H0.
  rewrite (writeEdges_eq g po fuel t rs) by (auto; split; lia). cbn [obind].
  rewrite IH; auto; try lia. 2:{ intros k r Hk. replace (S t + k) with (t + S k) by lia. apply HS. exact Hk. }
  rewrite <- app_assoc, fold_left_app. reflexivity.
Qed.
Lemma write_verts_eq g hs vs : Forall2 (fun x p => vgid g x = Some (fst p) /\ vweight g x = Some (snd p)) hs vs -> Forall ok_vrec vs -> forall f,
  foldM (fun f v => gid <- vgid g v ;; w <- vweight g v ;; f' <- put_u h f gid ;; put_d h bits f' [w]) hs f = Some (f ++ flat_map BV vs).
Proof.
  induction 1 as [|x p hs vs (H1 & H1') H2 IH]; intros HI f; cbn [foldM flat_map]; [now rewrite app_nil_r|].
  inversion HI as [|? ? (HI1 & HI2) HI3]; subst. rewrite H1. cbn [obind]. rewrite H1'. cbn [obind]. rewrite put_u_eq. cbn [obind]. rewrite put_d_eq. cbn [obind].
  rewrite IH by auto. rewrite u32_id by auto. unfold BV. now rewrite <- !app_assoc.
Qed.
Lemma write_coords_eq g c k : forall cs f, (forall i x, nth_error cs i = Some x -> k + i < nlv g /\ nth_error c (k + i) = Some x) ->
  foldM (fun f v => '(x, y, z) <- coord g c v ;; put_d h bits f [x; y; z]) (map S (seq k (length cs))) f = Some (f ++ flat_map BC cs).
Proof.
  revert k. intros k cs. revert k. induction cs as [|[[x y] z] cs IH]; intros k f H; cbn [length seq map foldM flat_map]; [now rewrite app_nil_r|].
  pose proof (H 0 _ eq_refl) as (H1 & H2). rewrite Nat.add_0_r in *. unfold coord at 1. cbn [vlid obind].
  destruct (Nat.ltb_spec k (nlv g)); [|lia]. rewrite H2. cbn [obind]. rewrite put_d_eq. cbn [obind]. rewrite IH.
  - unfold BC at 2. cbn [fst snd]. now rewrite <- app_assoc.
  - intros i x0 Hi. replace (S k + i) with (k + S i) by lia. apply H. exact Hi.
Qed.
Lemma write_ghosts_eq ord (owns : zmap Z) f : Permutation (ord owns) owns -> in32 (Z.of_nat (length owns)) ->
  (forall p, In p owns -> in32 (fst p) /\ in32 (snd p)) ->
  writeGhosts h ord f owns = Some (f ++ BG (ord owns)).
Proof.
  intros HP HL HI. unfold writeGhosts, BG. rewrite put_u_eq. cbn [obind]. rewrite u32_id by auto. rewrite (Permutation_length HP).
  assert (G : forall l f, (forall p, In p l -> in32 (fst p) /\ in32 (snd p)) ->
    foldM (fun f p => f' <- put_u h f (fst p) ;; put_u h f' (snd p)) l f = Some (f ++ flat_map (fun p => E (fst p) ++ E (snd p)) l)).
  { induction l as [|p l IH]; intros f0 HI'; cbn [foldM flat_map]; [now rewrite app_nil_r|].
    rewrite put_u_eq. cbn [obind]. rewrite put_u_eq. cbn [obind]. rewrite IH by (intros; apply HI'; right; auto).
    destruct (HI' p (or_introl eq_refl)). rewrite !u32_id by auto. now rewrite <- !app_assoc. }
  rewrite G; [now rewrite <- app_assoc|]. intros p Hp. apply HI. eapply Permutation_in; eauto.
Qed.

Lemma save_eq ord g po fuel cs vs tl :
  nlv g = length vs -> all_verts g fuel = Some (map S (seq 0 (nlv g))) ->
  Forall2 (fun x p => vgid g x = Some (fst p) /\ vweight g x = Some (snd p)) (map S (seq 0 (nlv g))) vs ->
  Forall ok_vrec vs -> in32 (Z.of_nat (length vs)) ->
  match cs with Some c => length c = length vs | None => True end ->
  ntypes g = length tl -> length tl <= 7 -> (forall t rs, nth_error tl t = Some rs -> type_seen g po fuel t rs) -> Forall ok_type tl ->
  let owns := fold_left (note po (self g)) (flat_map (fun rs => flat_map snd rs) tl) [] in
  Permutation (ord owns) owns -> in32 (Z.of_nat (length owns)) -> (forall p, In p owns -> in32 (fst p) /\ in32 (snd p)) ->
  saveToFile h bits ord fuel g cs = Some (file_of (hyper g) vs cs tl (ord owns)).
Proof.
  intros Ln Hv Hvs Hok HL Hcs Hnt H7 HT Hot owns HP HLo HIo. unfold saveToFile, writeHeader. rewrite put_u_eq. cbn [obind app].
  unfold writeVertices. rewrite put_u_eq. cbn [obind]. rewrite Hv. cbn [obind]. rewrite (write_verts_eq g _ vs Hvs Hok). cbn [obind].
  assert (EC : forall f, match cs with
     | Some c => f3 <- put_u h f 1%Z ;; foldM (fun f v => '(x, y, z) <- coord g c v ;; put_d h bits f [x; y; z]) (map S (seq 0 (nlv g))) f3
     | None => put_u h f 0%Z end = Some (f ++ Bcs cs)).
  { intros f. destruct cs as [c|]; cbn [Bcs].
    - rewrite put_u_eq. cbn [obind]. rewrite u32_id by (split; lia). rewrite Ln, <- Hcs. rewrite write_coords_eq; [now rewrite <- app_assoc|].
      intros i x Hi. cbn [Nat.add]. split; auto. rewrite Ln, <- Hcs. apply nth_error_Some. congruence.
    - rewrite put_u_eq. rewrite u32_id by (split; lia). reflexivity. }
  rewrite EC. cbn [obind]. rewrite put_u_eq. cbn [obind]. rewrite Hnt.
  rewrite (write_types_eq g po fuel tl 0); auto.
  2:{ rewrite Forall_forall in Hot |- *. intros rs Hr. destruct (Hot rs Hr) as (A & B). split; auto. rewrite Forall_forall in B |- *.
      intros e He. destruct (B e He) as (X1 & X2 & X3 & X4). exact (conj X1 (conj X3 X4)). }
  cbn [obind]. fold owns. rewrite write_ghosts_eq by auto. unfold file_of. f_equal. rewrite Ln. rewrite !u32_id; [|split; lia|auto|destruct (hyper g); split; lia].
  now rewrite <- !app_assoc.
Qed.
End S.

(** the recorded owners *)
Lemma note_find po me l : forall m v, Forall in32 l -> zfind (fold_left (note po me) l m) v =
  if (memZ v l && negb (Z.eqb (po v) me))%bool then Some (po v) else zfind m v.
Proof.
  induction l as [|x l IH]; intros m v H; [reflexivity|]. inversion H; subst. cbn [fold_left]. rewrite IH by auto. unfold memZ in *. cbn [existsb].
  fold (memZ v l). unfold note. rewrite u32_id by auto.
  destruct (Z.eqb_spec v x) as [->|N]; cbn [orb].
  - destruct (memZ x l); cbn [andb]; destruct (Z.eqb_spec (po x) me); cbn [negb]; auto. rewrite zfind_zput, Z.eqb_refl. reflexivity.
  - destruct (memZ v l && negb (Z.eqb (po v) me))%bool; auto. destruct (Z.eqb (po x) me); auto. rewrite zfind_zput.
    destruct (Z.eqb_spec x v); [congruence|reflexivity].
Qed.
Lemma note_nodup po me l : forall m, NoDup (map fst m) -> NoDup (map fst (fold_left (note po me) l m)).
Proof.
  induction l as [|x l IH]; intros m H; auto. cbn [fold_left]. apply IH. unfold note. destruct (Z.eqb (po x) me); auto. now apply zput_nodup.
Qed.
Lemma zput_len A (m : zmap A) k x : length (zput m k x) <= S (length m).
Proof. induction m as [|[a y] m IH]; cbn [zput length]; auto. destruct (Z.eqb a k); cbn [length]; lia. Qed.
Lemma put_all_find l : forall m v, NoDup (map fst l) -> (forall p, In p l -> (0 <= snd p < 2 ^ 31)%Z) ->
  zfind (fold_left (fun m p => zput m (fst p) (s32 (snd p))) l m) v = match zfind l v with Some o => Some o | None => zfind m v end.
Proof.
  induction l as [|[k o] l IH]; intros m v N H; [reflexivity|]. inversion N as [|? ? N1 N2]; subst. cbn [fold_left fst snd zfind] in *.
  rewrite IH by (auto; intros; apply H; right; auto). pose proof (s32_id o (H _ (or_introl eq_refl))) as So. rewrite So.
  destruct (Z.eqb_spec v k) as [->|Nk].
  - destruct (zfind l k) as [o'|] eqn:Ez.
    + exfalso. apply N1. rewrite zfind_key. congruence.
    + rewrite zfind_zput, Z.eqb_refl. reflexivity.
  - destruct (zfind l v); auto. rewrite zfind_zput. destruct (Z.eqb_spec k v); [congruence|reflexivity].
Qed.
Lemma zfind_perm A (l m : zmap A) v : Permutation l m -> NoDup (map fst m) -> zfind l v = zfind m v.
Proof.
  intros HP N. assert (N' : NoDup (map fst l)) by (eapply Permutation_NoDup; [symmetry; apply Permutation_map; exact HP|auto]).
  destruct (zfind l v) as [x|] eqn:E1; destruct (zfind m v) as [y|] eqn:E2; auto.
  - apply zfind_in2 in E1. apply (Permutation_in _ HP) in E1. apply zfind_in in E1; auto. congruence.
  - apply zfind_in2 in E1. apply (Permutation_in _ HP) in E1. apply zfind_in in E1; auto. congruence.
  - apply zfind_in2 in E2. apply (Permutation_in _ (Permutation_sym HP)) in E2. apply zfind_in in E2; auto. congruence.
Qed.

(** explicit default weights construct the same graph *)
Lemma call_eff g ty : (snd ty = [] \/ length (snd ty) = length (fst ty)) -> call_constructEdges g (eff_ty ty) = call_constructEdges g ty.
Proof.
  destruct ty as [es ws]. cbn [fst snd]. intros H. unfold call_constructEdges, eff_ty. cbn [fst snd]. unfold constructEdges.
  rewrite !map_length.
  assert (X : edge_wgts_vec (length es) (eff_wgts ws (length es)) = edge_wgts_vec (length es) ws).
  { destruct ws as [|w ws]; [|reflexivity]. unfold eff_wgts. destruct es as [|e es]; [reflexivity|].
    rewrite edge_wgts_vec_ok by (right; apply repeat_length). rewrite edge_wgts_vec_ok by (left; reflexivity). unfold eff_wgts at 1. cbn [length repeat]. reflexivity. }
  match goal with |- context [edge_wgts_vec ?a (eff_wgts ?b ?c)] => replace (edge_wgts_vec a (eff_wgts b c)) with (edge_wgts_vec a b) by (symmetry; exact X) end. reflexivity.
Qed.
Lemma build_eff me hg verts vws tys : valid_input hg verts vws tys ->
  build_graph me hg verts (vws ++ repeat 1%Z (length verts - length vws)) (map eff_ty tys) = build_graph me hg verts vws tys.
Proof.
  intros (_ & HL & _ & HT). unfold build_graph. 
  assert (EV : constructVerts me hg verts (vws ++ repeat 1%Z (length verts - length vws)) = constructVerts me hg verts vws).
  { unfold constructVerts. f_equal. apply foldM_ext. intros [[a b] c] i Hi. apply in_seq in Hi. destruct (nth_error verts i); auto. cbn [obind].
    destruct (aset a i z); auto. cbn [obind]. rewrite app_length, repeat_length.
    destruct (Nat.ltb_spec i (length vws + (length verts - length vws))); [|lia]. destruct (Nat.ltb_spec i (length vws)).
    - now rewrite nth_error_app1.
    - rewrite nth_error_app2 by auto. rewrite nth_error_repeat_lt by lia. reflexivity. }
  rewrite EV. destruct (constructVerts me hg verts vws) as [g0|]; auto. cbn [obind]. clear EV HL.
  revert g0. induction tys as [|ty tys IH]; intros g0; [reflexivity|]. cbn [map foldM]. rewrite call_eff.
  2:{ destruct ty as [es ws]. apply (HT es ws). left; auto. }
  destruct (call_constructEdges g0 ty); auto. cbn [obind]. apply IH. intros es ws Hin. apply HT. right; auto.
Qed.
Lemma ghosts_ext g verts wts ghosts tys o1 o2 : Rep g verts wts ghosts tys -> (forall v, In v ghosts -> look o1 v = look o2 v) ->
  constructGhosts_owners g o1 = constructGhosts_owners g o2.
Proof.
  intros HR H. unfold constructGhosts_owners.
  assert (X : foldM (fun a v => gid <- aget (gunmap g) v ;; aset a v (match zfind o1 gid with Some p => p | None => 0%Z end)) (seq 0 (ngv g)) (anew (ngv g)) =
              foldM (fun a v => gid <- aget (gunmap g) v ;; aset a v (match zfind o2 gid with Some p => p | None => 0%Z end)) (seq 0 (ngv g)) (anew (ngv g))).
  { apply foldM_ext. intros a v _. rewrite (rp_gun _ _ _ _ _ HR), aget_ainit. destruct (nth_error ghosts v) as [gid|] eqn:En; auto. cbn [obind].
    specialize (H gid (nth_error_In _ _ En)). unfold look in H. now rewrite H. }
  now rewrite X.
Qed.
