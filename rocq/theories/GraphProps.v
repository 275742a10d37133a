(** Properties C01-C12, C26, C53, C54 of the N-graph API.  Statements use only the model's API functions and GraphSpec. *)
From Verif Require Import Base GraphModel GraphSpec CsrProofs ConstructProofs AccessProofs AccessProofs2 CountProofs GraphTop GraphTop2 GraphTop3.

(* ------------------------------------------------------------------ *)
(** A running example: part 1 owns 10,11,12 of a hypergraph with two edge types and ghosts 20,21. *)
Definition ex_verts : list Z := [10; 11; 12]%Z.
Definition ex_vws : list Z := [5; 6; 7]%Z.
Definition ex_tys : list type_input :=
  [ ([(100, [10; 20; 11; 10]); (101, [12]); (102, [21; 12; 20])], [3; 4; 5]);
    ([(200, [11; 21])], []) ]%Z.
Definition ex_owns : zmap Z := [(20, 0); (21, 2)]%Z.
Example ex_valid : valid_input true ex_verts ex_vws ex_tys.
Proof. split; [repeat constructor; cbn; intuition congruence|]. split; [cbn; lia|]. split; [cbn; lia|].
  intros es ws [H|[H|[]]]; inversion H; subst; (split; [auto|discriminate]). Qed.
(** and a traditional graph with a vertex without edges, parallel edges, a self loop and a ghost *)
Definition ex_ttys : list type_input := [ ([(0, [12; 10]); (1, [10; 20]); (2, [12; 12]); (3, [10; 12]); (4, [12; 10])], [])%Z ].
Example ex_tvalid : valid_input false ex_verts ex_vws ex_ttys.
Proof. split; [repeat constructor; cbn; intuition congruence|]. split; [cbn; lia|]. split; [cbn; lia|].
  intros es ws [H|[]]; inversion H; subst; (split; [auto|]).
  intros _ e He. repeat (destruct He as [<-|He]; [reflexivity|]). destruct He. Qed.
Example ex_tlocal : local_sources ex_verts (fst (nth 0 ex_ttys ([], []))).
Proof. intros e u w He E. cbn in He. unfold ex_verts. repeat (destruct He as [<-|He]; [inversion E; subst; cbn; intuition congruence|]). destruct He. Qed.
Example ex_constructed : exists g, constructed 1 true ex_verts ex_vws ex_tys g /\ build_part 1 true ex_verts ex_vws ex_tys ex_owns = Some g.
Proof. destruct (construction_total 1 true ex_verts ex_vws ex_tys ex_owns ex_valid) as (_ & _ & g & H). exists g. split; auto.
  split; [exact ex_valid|right; eauto]. Qed.

(* ------------------------------------------------------------------ *)
(** C01 *)
Theorem C01_vertex_handle l : getVertex l <> 0 /\ vlid (getVertex l) = Some l /\ (forall l', getVertex l = getVertex l' -> l = l').
Proof. unfold getVertex. split; [lia|]. split; [now rewrite Nat.add_1_r|intros; lia]. Qed.
Theorem C01_edge_handle nt l t : t < nt ->
  getEdge nt l t <> 0 /\ edec nt (getEdge nt l t) = Some (t, l) /\
  (forall l' t', t' < nt -> getEdge nt l t = getEdge nt l' t' -> l = l' /\ t = t').
Proof. intros H. split; [unfold getEdge; lia|]. split; [now apply edec_getEdge|]. intros; now apply (getEdge_inj nt). Qed.
(** conversely every non-null handle names one (type, number) *)
Theorem C01_edge_handle_onto nt h : nt <> 0 -> h <> 0 -> exists t l, t < nt /\ h = getEdge nt l t.
Proof. intros H H0. destruct h as [|k]; [lia|]. exists (k mod nt), (k / nt). split; [now apply Nat.mod_upper_bound|].
  unfold getEdge. rewrite (Nat.div_mod k nt) at 1 by auto. lia. Qed.
Print Assumptions C01_edge_handle.
Example C01_ex : 3 < 7 /\ getEdge 7 5 3 = 39 /\ edec 7 39 = Some (3, 5). Proof. repeat split; lia. Qed.

(** Construction never runs into undefined behaviour on valid input. *)
Theorem C02_construction_total me hg verts vws tys owns : valid_input hg verts vws tys ->
  exists g, build_graph me hg verts vws tys = Some g /\ exists g', build_part me hg verts vws tys owns = Some g'.
Proof. exact (construction_total me hg verts vws tys owns). Qed.
Print Assumptions C02_construction_total.

(** C02 *)
Theorem C02_pins_preserved me verts vws tys g t es ws i gid ps fuel :
  constructed me true verts vws tys g -> nth_error tys t = Some (es, ws) -> nth_error es i = Some (gid, ps) -> length ps < fuel ->
  exists hs, edge_pins g (getEdge (ntypes g) i t) fuel = Some hs /\ mapM (vgid g) hs = Some ps /\
    edegree g (getEdge (ntypes g) i t) = Some (length ps) /\ egid g (getEdge (ntypes g) i t) = Some gid.
Proof. intros HC. exact (c_pins me true verts vws tys g HC t es ws i gid ps fuel eq_refl). Qed.
Print Assumptions C02_pins_preserved.
Theorem C02_counts me hg verts vws tys g t es ws : constructed me hg verts vws tys g -> nth_error tys t = Some (es, ws) ->
  ntypes g = length tys /\ nlv g = length verts /\
  option_map e_num (gtype g t) = Some (length es) /\ option_map e_npins (gtype g t) = Some (length (concat (pins_of es))).
Proof. intros HC Ht. split; [eapply c_ntypes; eauto|]. split; [eapply c_counts; eauto|]. eapply c_numedges; eauto. Qed.
Example C02_ex : (g <- build_graph 1 true ex_verts ex_vws ex_tys ;; hs <- edge_pins g (getEdge 2 0 0) 9 ;; mapM (vgid g) hs) = Some [10; 20; 11; 10]%Z.
Proof. vm_compute. reflexivity. Qed.

(** C03 *)
Theorem C03_incidence_inverse me verts vws tys g t es ws l v fuel :
  constructed me true verts vws tys g -> nth_error tys t = Some (es, ws) -> nth_error verts l = Some v -> length (incident v es) < fuel ->
  vertex_edges g (getVertex l) t fuel = Some (map (fun i => getEdge (ntypes g) i t) (incident v es)) /\
  vdegree g (getVertex l) t = Some (length (incident v es)).
Proof. intros HC. exact (c_incident me true verts vws tys g HC t es ws l v fuel eq_refl). Qed.
Print Assumptions C03_incidence_inverse.
(** what [incident] means: number i occurs as often as v is a pin of edge i *)
Theorem C03_incident_meaning v es i : count_occ Nat.eq_dec (incident v es) i = match nth_error es i with Some e => count_occ Z.eq_dec (snd e) v | None => 0 end.
Proof.
  unfold incident. assert (G : forall es a i, count_occ Nat.eq_dec (flat_map (fun p => repeat (fst p) (count_occ Z.eq_dec (snd (snd p)) v)) (combine (seq a (length es)) es)) i
     = if a <=? i then match nth_error es (i - a) with Some e => count_occ Z.eq_dec (snd (e : edge_input)) v | None => 0 end else 0).
  { clear. induction es as [|e es IH]; intros a i; cbn [length seq combine flat_map].
    - cbn. destruct (a <=? i); auto. destruct (i - a); auto.
    - rewrite count_occ_app, IH. cbn [fst snd].
      assert (R : forall n, count_occ Nat.eq_dec (repeat a n) i = if Nat.eq_dec a i then n else 0).
      { induction n; cbn; [destruct (Nat.eq_dec a i); auto|]. destruct (Nat.eq_dec a i); lia. }
      rewrite R. destruct (Nat.eq_dec a i) as [->|N].
      + rewrite Nat.leb_refl, Nat.sub_diag. destruct (Nat.leb_spec (S i) i); [lia|]. cbn. lia.
      + destruct (Nat.leb_spec (S a) i), (Nat.leb_spec a i); try lia. replace (i - a) with (S (i - S a)) by lia. reflexivity. }
  rewrite G. cbn [Nat.leb]. now rewrite Nat.sub_0_r.
Qed.
Example C03_ex : incident 10 (fst (nth 0 ex_tys ([], []))) = [0; 0] /\
  (g <- build_graph 1 true ex_verts ex_vws ex_tys ;; vertex_edges g (getVertex 0) 0 9) = Some [1; 1].
Proof. split; vm_compute; reflexivity. Qed.

(** C04 *)
Theorem C04_out_edges me verts vws tys g t es ws l v fuel :
  constructed me false verts vws tys g -> nth_error tys t = Some (es, ws) -> nth_error verts l = Some v -> length (out_dests v es) < fuel ->
  exists hs ds, vertex_edges g (getVertex l) t fuel = Some hs /\ mapM (v_of g) hs = Some ds /\
    mapM (vgid g) ds = Some (out_dests v es) /\ (forall h, In h hs -> u_of g h = Some (getVertex l)) /\
    vdegree g (getVertex l) t = Some (length (out_dests v es)).
Proof. intros HC. exact (c_out me false verts vws tys g HC t es ws l v fuel eq_refl). Qed.
Print Assumptions C04_out_edges.
(** globally: the stored edges are the given edges, up to order, when every source is local *)
Theorem C04_edges_are_the_given_edges me verts vws tys g t es ws :
  constructed me false verts vws tys g -> nth_error tys t = Some (es, ws) -> local_sources verts es ->
  exists l, mapM (edge_ends g t) (seq 0 (length es)) = Some l /\ Permutation (map (fun p => [fst p; snd p]) l) (pins_of es).
Proof. intros HC Ht. exact (trad_edges_perm me verts vws tys g HC t es ws Ht). Qed.
Print Assumptions C04_edges_are_the_given_edges.
Example C04_ex : out_dests 12 (fst (nth 0 ex_ttys ([], []))) = [10; 12; 10]%Z /\
  (g <- build_graph 1 false ex_verts ex_vws ex_ttys ;; mapM (edge_ends g 0) (seq 0 5)) = Some [(10, 20); (10, 12); (12, 10); (12, 12); (12, 10)]%Z.
Proof. split; vm_compute; reflexivity. Qed.

(** C05 *)
Theorem C05_source_unique me verts vws tys g t es ws i :
  constructed me false verts vws tys g -> nth_error tys t = Some (es, ws) -> local_sources verts es -> i < length es ->
  exists l, u_of g (getEdge (ntypes g) i t) = Some (getVertex l) /\ l < length verts /\
   forall l' fuel hs, l' < length verts -> vertex_edges g (getVertex l') t fuel = Some hs -> (In (getEdge (ntypes g) i t) hs <-> l' = l).
Proof. intros HC Ht. exact (u_unique me verts vws tys g HC t es ws Ht i). Qed.
Print Assumptions C05_source_unique.
(** An edge whose source is not local is counted by numLocalEdges but never stored, and u() of the last number fails. *)
Theorem C05_ghost_source_refuted : exists verts tys g, constructed 0 false verts [] tys g /\
  option_map e_num (gtype g 0) = Some 2 /\ u_of g (getEdge (ntypes g) 1 0) = None.
Proof.
  exists [1; 2]%Z, [([(0, [1; 2]); (1, [9; 1])], [])%Z]. eexists. split; [split; [|left; vm_compute; reflexivity]|split; vm_compute; reflexivity].
  split; [repeat constructor; cbn; intuition congruence|]. split; [cbn; lia|]. split; [cbn; lia|].
  intros es ws [H|[]]; inversion H; subst; (split; [auto|]). intros _ e He. repeat (destruct He as [<-|He]; [reflexivity|]). destruct He.
Qed.
Example C05_ex : (g <- build_graph 1 false ex_verts ex_vws ex_ttys ;; mapM (fun i => u_of g (getEdge 1 i 0)) (seq 0 5)) = Some [1; 1; 3; 3; 3].
Proof. vm_compute. reflexivity. Qed.

(** C06 *)
Theorem C06_numbering me hg verts vws tys g : constructed me hg verts vws tys g ->
  NoDup (verts ++ ghosts_of verts tys) /\ nlv g = length verts /\ ngv g = length (ghosts_of verts tys) /\
  (forall l v, nth_error (verts ++ ghosts_of verts tys) l = Some v <-> vgid g (getVertex l) = Some v) /\
  (forall l v, nth_error (verts ++ ghosts_of verts tys) l = Some v <-> findGID g v = Some (getVertex l)) /\
  (forall v, In v (verts ++ ghosts_of verts tys) <-> In v verts \/ exists ty e, In ty tys /\ In e (fst ty) /\ In v (snd e)).
Proof.
  intros HC. destruct (constructed_rep _ _ _ _ _ _ HC) as (HR & _). split; [apply HR|]. split; [apply HR|]. split; [apply HR|]. split; [|split].
  - intros l v. split; [apply (c_vgid _ _ _ _ _ _ HC)|]. unfold getVertex. rewrite Nat.add_1_r. unfold vgid. cbn [vlid obind].
    rewrite (rp_nlv _ _ _ _ _ HR), (rp_gun _ _ _ _ _ HR), (rp_lun _ _ _ _ _ HR), !aget_ainit.
    destruct (Nat.leb_spec (length verts) l); [now rewrite nth_error_app2 by auto|now rewrite nth_error_app1 by auto].
  - intros l v. split; [apply (c_find _ _ _ _ _ _ HC)|]. unfold findGID. destruct (zfind (vmap g) v) as [k|] eqn:E; [|discriminate].
    cbn [obind]. unfold getVertex. intros H. inversion H. assert (k = l) by lia. subst k. now apply (rp_vm _ _ _ _ _ HR).
  - apply (c_gids_iff _ _ _ _ _ _ HC).
Qed.
Print Assumptions C06_numbering.
Example C06_ex : ghosts_of ex_verts ex_tys = [20; 21]%Z. Proof. reflexivity. Qed.

(** C07 *)
Theorem C07_edge_weights_hypergraph me verts vws tys g t es ws i gid ps :
  constructed me true verts vws tys g -> nth_error tys t = Some (es, ws) -> nth_error es i = Some (gid, ps) ->
  egid g (getEdge (ntypes g) i t) = Some gid /\
  eweight g (getEdge (ntypes g) i t) = match ws with [] => Some 1%Z | _ => nth_error ws i end.
Proof. intros HC Ht Hi. split; [destruct (c_pins _ _ _ _ _ _ HC t es ws i gid ps (S (length ps)) eq_refl Ht Hi ltac:(lia)) as (hs & _ & _ & _ & H); exact H|
  exact (w_edge me true verts vws tys g HC t es ws i (gid, ps) Ht Hi)]. Qed.
Theorem C07_vertex_weights me hg verts vws tys g l v : constructed me hg verts vws tys g -> nth_error verts l = Some v ->
  vweight g (getVertex l) = Some (match nth_error vws l with Some w => w | None => 1%Z end).
Proof. intros HC. exact (w_vertex me hg verts vws tys g HC l v). Qed.
(** with equal weights (or none) a traditional graph is right too *)
Theorem C07_edge_weights_traditional_partial me verts vws tys g t es ws i e :
  constructed me false verts vws tys g -> nth_error tys t = Some (es, ws) -> nth_error es i = Some e ->
  eweight g (getEdge (ntypes g) i t) = match ws with [] => Some 1%Z | _ => nth_error ws i end.
Proof. intros HC. exact (w_edge me false verts vws tys g HC t es ws i e). Qed.
(** In a traditional graph stored position i is not input edge i: weights end up on the wrong edges. *)
Theorem C07_traditional_refuted : exists verts es ws g, constructed 0 false verts [] [(es, ws)] g /\ local_sources verts es /\
  exists i a b w, edge_ends g 0 i = Some (a, b) /\ eweight g (getEdge (ntypes g) i 0) = Some w /\
   forall j gid, nth_error es j = Some (gid, [a; b]) -> nth_error ws j <> Some w.
Proof.
  exists [1; 2]%Z, [(0, [2; 1]); (1, [1; 2])]%Z, [7; 9]%Z. eexists. split; [split; [|left; vm_compute; reflexivity]|].
  - split; [repeat constructor; cbn; intuition congruence|]. split; [cbn; lia|]. split; [cbn; lia|].
    intros es ws [H|[]]; inversion H; subst; (split; [auto|]). intros _ e He. repeat (destruct He as [<-|He]; [reflexivity|]). destruct He.
  - split; [intros e u w He E; cbn in He; repeat (destruct He as [<-|He]; [inversion E; subst; cbn; intuition congruence|]); destruct He|].
    exists 0, 1%Z, 2%Z, 7%Z. split; [vm_compute; reflexivity|]. split; [vm_compute; reflexivity|].
    intros [|[|j]] gid H; cbn in H; try discriminate; try (destruct j; discriminate).
Qed.
Print Assumptions C07_edge_weights_hypergraph.
Print Assumptions C07_traditional_refuted.

(** C08 *)
Theorem C08_owner me hg verts vws tys owns g : valid_input hg verts vws tys -> build_part me hg verts vws tys owns = Some g ->
  (forall l v, nth_error (verts ++ ghosts_of verts tys) l = Some v -> owner g (getVertex l) = Some (part_of me verts owns v)) /\
  (forall l, length (verts ++ ghosts_of verts tys) <= l -> owner g (getVertex l) = Some (-1)%Z).
Proof. intros HV HB. split; [apply (p_owner me hg verts vws tys owns g HV HB)|apply (p_owner_beyond me hg verts vws tys owns g HV HB)]. Qed.
Print Assumptions C08_owner.
Example C08_ex : (g <- build_part 1 true ex_verts ex_vws ex_tys ex_owns ;; mapM (owner g) [1; 3; 4; 5; 6]) = Some [1; 1; 0; 2; -1]%Z.
Proof. vm_compute. reflexivity. Qed.

(** C09 *)
Theorem C09_global_counts own H t parts gs fuel :
  consistent own H t parts ->
  Forall2 (fun rp g => build_part (Z.of_nat (fst rp)) true (pi_verts (snd rp)) (pi_vws (snd rp)) (pi_tys (snd rp)) (pi_owns (snd rp)) = Some g)
     (combine (seq 0 (length parts)) parts) gs ->
  length H < fuel ->
  global_counts gs t fuel = Some (Z.of_nat (length (filter (fun e => negb (match snd e with [] => true | _ => false end)) H)),
     Z.of_nat (length (concat (map snd H)))).
Proof. exact (consistent_counts own H t parts gs fuel). Qed.
Print Assumptions C09_global_counts.
(** a concrete distribution over three parts, with an edge shared by all three *)
Definition ex_H : list edge_input := [(100, [10; 20]); (101, [11]); (102, [20; 10; 30]); (103, [30; 20])]%Z.
Definition ex_own (v : Z) : nat := Z.to_nat (v / 10 - 1).
Definition ex_parts : list part_input :=
  [ mkPart [10; 11] [] [([(100, [10; 20]); (101, [11]); (102, [20; 10; 30])], [])] [(20, 1); (30, 2)];
    mkPart [20] [] [([(103, [30; 20]); (100, [10; 20]); (102, [20; 10; 30])], [])] [(10, 0); (30, 2)];
    mkPart [30] [] [([(102, [20; 10; 30]); (103, [30; 20])], [])] [(10, 0); (20, 1)] ]%Z.
Ltac enum := repeat match goal with
  | H : In _ _ |- _ => progress (cbn in H)
  | H : _ \/ _ |- _ => destruct H
  | H : False |- _ => destruct H
  | H : _ = ?e |- _ => subst e
  end.
Example C09_ex_consistent : consistent ex_own ex_H 0 ex_parts.
Proof.
  split.
  - intros e v He Hv. enum; vm_compute; repeat constructor.
  - intros r p Hr. destruct r as [|[|[|r]]]; cbn in Hr; try (destruct r; discriminate); inversion Hr; subst p; clear Hr; cbn [pi_verts pi_vws pi_tys pi_owns].
    all: split; [split; [repeat constructor; cbn; intuition congruence|]; split; [cbn; lia|]; split; [cbn; lia|]; intros es ws [E|[]]; inversion E; subst; (split; [auto|discriminate])|].
    all: split; [intros e v He Hv; enum; vm_compute; intuition congruence|].
    all: split; [intros v Hv; enum; reflexivity|].
    all: eexists _, _; split; [reflexivity|]; split.
    1: vm_compute; apply Permutation_refl.
    2: vm_compute; apply perm_trans with [(100, [10; 20]); (103, [30; 20]); (102, [20; 10; 30])]%Z; [apply perm_swap|apply perm_skip, perm_swap].
    3: vm_compute; apply Permutation_refl.
    all: intros e v He Hv N; enum; first [reflexivity|exfalso; apply N; reflexivity].
Qed.
Example C09_ex : (gs <- mapM (fun rp => build_part (Z.of_nat (fst rp)) true (pi_verts (snd rp)) (pi_vws (snd rp)) (pi_tys (snd rp)) (pi_owns (snd rp)))
    (combine (seq 0 3) ex_parts) ;; global_counts gs 0 9) = Some (4, 8)%Z.
Proof. vm_compute. reflexivity. Qed.

(** C10 *)
Theorem C10_residence me verts vws tys owns g t es ws i gid ps :
  valid_input true verts vws tys -> build_part me true verts vws tys owns = Some g ->
  nth_error tys t = Some (es, ws) -> nth_error es i = Some (gid, ps) ->
  getResidence g (getEdge (ntypes g) i t) = Some (map (part_of me verts owns) ps).
Proof. intros HV HB. exact (p_residence me true verts vws tys owns g HV HB eq_refl t es ws i gid ps). Qed.
Theorem C10_isResidentOn me verts vws tys owns g t es ws i gid ps peer :
  valid_input true verts vws tys -> build_part me true verts vws tys owns = Some g ->
  nth_error tys t = Some (es, ws) -> nth_error es i = Some (gid, ps) ->
  exists b, isResidentOn g (getEdge (ntypes g) i t) peer = Some b /\ (b = true <-> exists v, In v ps /\ part_of me verts owns v = peer).
Proof. intros HV HB Ht Hi. exact (p_resident me true verts vws tys owns g HV HB eq_refl t es ws i gid ps Ht Hi peer). Qed.
Theorem C10_isCut me verts vws tys owns g t es ws i gid ps fuel :
  valid_input true verts vws tys -> build_part me true verts vws tys owns = Some g ->
  nth_error tys t = Some (es, ws) -> nth_error es i = Some (gid, ps) ->
  (forall v, In v ps -> part_of me verts owns v <> -1)%Z -> length ps < fuel ->
  exists b, isCut g (getEdge (ntypes g) i t) fuel = Some b /\
    (b = true <-> exists v w, In v ps /\ In w ps /\ part_of me verts owns v <> part_of me verts owns w).
Proof. intros HV HB Ht Hi. exact (p_cut me true verts vws tys owns g HV HB eq_refl t es ws i gid ps Ht Hi fuel). Qed.
Theorem C10_isCut_traditional me verts vws tys owns g t es ws l v fuel hs m h w :
  valid_input false verts vws tys -> build_part me false verts vws tys owns = Some g ->
  nth_error tys t = Some (es, ws) -> nth_error verts l = Some v ->
  vertex_edges g (getVertex l) t fuel = Some hs -> length (out_dests v es) < fuel ->
  nth_error hs m = Some h -> nth_error (out_dests v es) m = Some w -> (me <> -1)%Z ->
  isCut g h 3 = Some (negb (Z.eqb (part_of me verts owns w) me)).
Proof. intros HV HB Ht. exact (p_cut_trad me false verts vws tys owns g HV HB eq_refl t es ws Ht l v fuel hs m h w). Qed.
Print Assumptions C10_residence. Print Assumptions C10_isResidentOn. Print Assumptions C10_isCut. Print Assumptions C10_isCut_traditional.
Example C10_ex : (g <- build_part 1 true ex_verts ex_vws ex_tys ex_owns ;;
   a <- getResidence g (getEdge 2 2 0) ;; b <- mapM (fun i => isCut g (getEdge 2 i 0) 9) [0; 1; 2] ;; Some (a, b)) = Some ([2; 1; 0]%Z, [true; false; true]).
Proof. vm_compute. reflexivity. Qed.

(** C11 *)
Theorem C11_vertices me hg verts vws tys g fuel : constructed me hg verts vws tys g -> length verts < fuel ->
  exists hs, all_verts g fuel = Some hs /\ mapM (vgid g) hs = Some verts /\ NoDup hs.
Proof. intros HC. exact (w_iter_verts me hg verts vws tys g HC fuel). Qed.
Theorem C11_ghosts me hg verts vws tys g fuel : constructed me hg verts vws tys g -> length (ghosts_of verts tys) < fuel ->
  exists hs, all_ghosts g fuel = Some hs /\ mapM (vgid g) hs = Some (ghosts_of verts tys) /\ NoDup hs.
Proof. intros HC. exact (w_iter_ghosts me hg verts vws tys g HC fuel). Qed.
Theorem C11_edges me hg verts vws tys g t es ws fuel : constructed me hg verts vws tys g -> nth_error tys t = Some (es, ws) -> length es < fuel ->
  all_edges g t fuel = Some (map (fun i => getEdge (ntypes g) i t) (seq 0 (length es))).
Proof. intros HC. exact (w_iter_edges me hg verts vws tys g HC t es ws fuel). Qed.
Print Assumptions C11_vertices. Print Assumptions C11_ghosts. Print Assumptions C11_edges.
(** The pins of a traditional self loop: one pin is visited although degree() says two. *)
Theorem C11_self_loop_pins_refuted : exists verts tys g, constructed 0 false verts [] tys g /\
  edge_pins g (getEdge (ntypes g) 0 0) 5 = Some [1] /\ edegree g (getEdge (ntypes g) 0 0) = Some 2.
Proof.
  exists [1]%Z, [([(0, [1; 1])], [])%Z]. eexists. split; [split; [|left; vm_compute; reflexivity]|split; vm_compute; reflexivity].
  split; [repeat constructor; cbn; intuition congruence|]. split; [cbn; lia|]. split; [cbn; lia|].
  intros es ws [H|[]]; inversion H; subst; (split; [auto|]). intros _ e He. repeat (destruct He as [<-|He]; [reflexivity|]). destruct He.
Qed.

(** C12 *)
Theorem C12_neighbours_hypergraph me verts vws tys g t es ws l v fuel :
  constructed me true verts vws tys g -> nth_error tys t = Some (es, ws) -> nth_error verts l = Some v ->
  let nb := flat_map (fun i => match nth_error es i with Some e => snd e | None => [] end) (incident v es) in
  length nb < fuel -> exists hs, adjacent g (getVertex l) t fuel = Some hs /\ mapM (vgid g) hs = Some nb.
Proof. intros HC. exact (w_adj_hyper me true verts vws tys g HC t es ws l v fuel eq_refl). Qed.
Theorem C12_neighbours_traditional me verts vws tys g t es ws l v fuel :
  constructed me false verts vws tys g -> nth_error tys t = Some (es, ws) -> nth_error verts l = Some v -> length (out_dests v es) < fuel ->
  exists hs, adjacent g (getVertex l) t fuel = Some hs /\ mapM (vgid g) hs = Some (out_dests v es).
Proof. intros HC. exact (w_adj_trad me false verts vws tys g HC t es ws l v fuel eq_refl). Qed.
Print Assumptions C12_neighbours_hypergraph. Print Assumptions C12_neighbours_traditional.
Example C12_ex : (g <- build_graph 1 true ex_verts ex_vws ex_tys ;; hs <- adjacent g (getVertex 2) 0 9 ;; mapM (vgid g) hs) = Some [12; 21; 12; 20]%Z.
Proof. vm_compute. reflexivity. Qed.

(** C26 *)
Theorem C26_remove_frame me hg verts vws tys g t : constructed me hg verts vws tys g -> t < ntypes g ->
  exists g', removeEdges g t = Some g' /\
   (forall t' i fuel, t' < ntypes g' -> t' <> t -> same_edge g g' t' i fuel) /\
   (forall t' v fuel, t' < ntypes g' -> t' <> t -> same_rows g g' t' v fuel) /\
   (forall v, vgid g' v = vgid g v) /\ (forall v, owner g' v = owner g v) /\ (forall v, vweight g' v = vweight g v).
Proof.
  intros HC Hlt. destruct (removeEdges_spec g t Hlt) as (g' & E & Hs & Hn & Hg). exists g'. split; auto.
  assert (Hle : ntypes g' <= ntypes g) by (rewrite Hn; destruct (t =? ntypes g - 1); lia).
  split; [|split].
  - intros t' i fuel H1 H2. apply same_type_edge; auto; lia.
  - intros t' v fuel H1 H2. apply same_type_rows; auto; lia.
  - destruct Hs as (Hh & H1 & H2 & H3 & H4 & H5 & H6 & H7 & H8). unfold vgid, owner, vweight. rewrite H1, H2, H3, H4, H5, H7, H8. auto.
Qed.
Theorem C26_add_after_remove_partial me hg verts vws tys g t g' es ws :
  constructed me hg verts vws tys g -> removeEdges g t = Some g' -> ntypes g' < 7 ->
  (hg = false -> forall e, In e es -> length (snd e) = 2) -> ws = [] \/ length ws = length es ->
  exists g'', constructEdges g' (map fst es) (map (@length Z) (pins_of es)) (concat (pins_of es)) ws = Some (g'', ntypes g') /\
    (forall t', t' < ntypes g' -> gtype g'' t' = gtype g' t').
Proof. exact (add_after_remove me hg verts vws tys g t g' es ws). Qed.
(** the slot of a removed middle type is never reused, so a graph that had seven types stays full *)
Theorem C26_slot_not_reused_refuted : exists verts tys g g', constructed 0 true verts [] tys g /\ removeEdges g 3 = Some g' /\
  constructEdges g' [] [] [] [] = None.
Proof.
  exists [1]%Z, (repeat ([], []) 7). eexists. eexists. split; [split; [|left; vm_compute; reflexivity]|split; [vm_compute; reflexivity|vm_compute; reflexivity]].
  split; [repeat constructor; cbn; intuition congruence|]. split; [cbn; lia|]. split; [cbn; lia|].
  intros es ws H. apply repeat_spec in H. inversion H; subst. split; auto. intros; contradiction.
Qed.
Print Assumptions C26_remove_frame. Print Assumptions C26_add_after_remove_partial.

(** C53 *)
Theorem C53_constructVerts me hg verts :
  (forall ws, length ws = length verts -> constructVerts_arr me hg (length verts) verts (Some ws) = constructVerts me hg verts ws) /\
  constructVerts_arr me hg (length verts) verts None = constructVerts me hg verts [].
Proof. split; [exact (constructVerts_arr_vec me hg verts)|exact (constructVerts_arr_none me hg verts)]. Qed.
Theorem C53_constructEdges g ids degs pv : length degs = length ids -> nsum degs = length pv ->
  (forall ws, length ws = length ids -> constructEdges_arr g (length ids) ids degs pv (Some ws) = constructEdges g ids degs pv ws) /\
  constructEdges_arr g (length ids) ids degs pv None = constructEdges g ids degs pv [].
Proof. intros H1 H2. split; [intros ws; exact (constructEdges_arr_vec g ids degs pv ws H1 H2)|exact (constructEdges_arr_none g ids degs pv H1 H2)]. Qed.
Theorem C53_constructGhosts me hg verts vws tys g ids owns : constructed me hg verts vws tys g ->
  NoDup ids -> length owns = length ids ->
  (forall v, In v (ghosts_of verts tys) -> In v ids) -> (forall v, In v ids -> In v (verts ++ ghosts_of verts tys)) ->
  constructGhosts_owners_arr g (length ids) ids owns = constructGhosts_owners g (combine ids owns).
Proof. intros HC. apply (constructGhosts_arr_map g verts (vws ++ repeat 1%Z (length verts - length vws)) (ghosts_of verts tys) (map eff_ty tys)). exact (proj1 (constructed_rep _ _ _ _ _ _ HC)). Qed.
(** An id that is not in the graph makes the array form alias it to local vertex 0; the map form ignores it. *)
Theorem C53_unknown_ghost_refuted : exists verts tys g ga gm, constructed 0 true verts [] tys g /\
  constructGhosts_owners_arr g 2 [7; 8]%Z [1; 1]%Z = Some ga /\ constructGhosts_owners g [(7, 1); (8, 1)]%Z = Some gm /\
  findGID ga 8 = Some 1 /\ vgid ga 1 = Some 5%Z /\ findGID gm 8 = None.
Proof.
  exists [5]%Z, [([(0, [5; 7])], [])%Z]. eexists. eexists. eexists. split; [split; [|left; vm_compute; reflexivity]|repeat split; vm_compute; reflexivity].
  split; [repeat constructor; cbn; intuition congruence|]. split; [cbn; lia|]. split; [cbn; lia|].
  intros es ws [H|[]]; inversion H; subst; (split; [auto|]). discriminate.
Qed.
Print Assumptions C53_constructGhosts. Print Assumptions C53_unknown_ghost_refuted.
Example C53_ex : (g <- build_graph 1 true ex_verts ex_vws ex_tys ;; constructGhosts_owners_arr g 3 [21; 10; 20]%Z [2; 9; 0]%Z)
  = build_part 1 true ex_verts ex_vws ex_tys ex_owns.
Proof. vm_compute. reflexivity. Qed.

(** C54 *)
Theorem C54_setEdgeWeights_const me hg verts vws tys g t es ws w : constructed me hg verts vws tys g -> nth_error tys t = Some (es, ws) ->
  exists g', setEdgeWeights_const g w t = Some g' /\ same_shape g g' /\ ntypes g' = ntypes g /\
   (forall t', t' <> t -> gtype g' t' = gtype g t') /\
   (forall i, i < length es -> eweight g' (getEdge (ntypes g') i t) = Some w) /\
   (forall i fuel, egid g' (getEdge (ntypes g') i t) = egid g (getEdge (ntypes g) i t) /\ edge_pins g' (getEdge (ntypes g') i t) fuel = edge_pins g (getEdge (ntypes g) i t) fuel) /\
   (forall v fuel, vertex_edges g' v t fuel = vertex_edges g v t fuel).
Proof. exact (setEdgeWeights_spec me hg verts vws tys g t es ws w). Qed.
(** The vector overload aborts on every constructed type, so it can never replace weights. *)
Theorem C54_setEdgeWeights_vector_refuted me hg verts vws tys g t es ws nws : constructed me hg verts vws tys g -> nth_error tys t = Some (es, ws) ->
  setEdgeWeights_vec g nws t = None.
Proof. exact (setEdgeWeights_vec_fails me hg verts vws tys g t es ws nws). Qed.
Print Assumptions C54_setEdgeWeights_const. Print Assumptions C54_setEdgeWeights_vector_refuted.
