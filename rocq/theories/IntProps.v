(** C71: the access functions of the graph with the integer types they really use. *)
From Verif Require Import Base GraphModel CsrProofs ConstructProofs GraphSpec AccessProofs AccessProofs2 CountProofs GraphTop GraphTop2 GraphProps SecondAdjModel SecondAdjProofs SecondAdjProps.
From Verif Require Import IntModel.

(** ** the size limits, in terms of what the caller passes in: at most 2^(w-2) local vertices; fewer than 2^(w-1)-1 vertices with
    the ghosts; for each edge type fewer than 2^(w-1) pins, and fewer than 2^(w-1) edges times types *)
Definition within (w : nat) (verts : list Z) (tys : list type_input) : Prop :=
  2 * length verts <= 2 ^ (w - 1) /\ length (verts ++ ghosts_of verts tys) + 1 < 2 ^ (w - 1) /\
  forall es ws, In (es, ws) tys -> length tys * length es < 2 ^ (w - 1) /\ length (concat (pins_of es)) < 2 ^ (w - 1).

Lemma chk_ok w n : n < lim w -> chk w n = Some n.
Proof. intros H. unfold chk. destruct (Nat.ltb_spec n (lim w)); [reflexivity|lia]. Qed.
Lemma chk_none w n : lim w <= n -> chk w n = None.
Proof. intros H. unfold chk. destruct (Nat.ltb_spec n (lim w)); [lia|reflexivity]. Qed.
Lemma chk_inv w n m : chk w n = Some m -> m = n /\ n < lim w.
Proof. unfold chk. destruct (Nat.ltb_spec n (lim w)); [|discriminate]. intros H'. inversion H'. subst. auto. Qed.
Lemma lim_pos w : 0 < lim w.
Proof. unfold lim. pose proof (Nat.pow_nonzero 2 (w - 1)). lia. Qed.
Lemma pow_lim w : 2 ^ (w - 1) = lim w. Proof. reflexivity. Qed.
Lemma lim_le w : lim w <= 2 ^ w.
Proof. unfold lim. apply Nat.pow_le_mono_r; lia. Qed.
Lemma narrow_ok w p : p < lim w -> narrow w p = Some p.
Proof. intros H. unfold narrow. pose proof (lim_le w). rewrite Nat.mod_small by lia. destruct (Nat.ltb_spec p (lim w)); [reflexivity|lia]. Qed.
Lemma narrow_alias w p : narrow w (p + 2 ^ w) = narrow w p.
Proof. unfold narrow. replace (p + 2 ^ w) with (p + 1 * 2 ^ w) by lia. rewrite Nat.mod_add by (apply Nat.pow_nonzero; lia). reflexivity. Qed.

Lemma drain_ext {S} (I : S -> Prop) (f g : S -> option (nat * S)) :
  (forall s, I s -> f s = g s) -> (forall s h s', I s -> g s = Some (h, s') -> h <> 0 -> I s') ->
  forall fuel s, I s -> drain f fuel s = drain g fuel s.
Proof.
  intros E P. induction fuel as [|k IH]; intros s Hs; [reflexivity|]. cbn [drain]. rewrite (E s Hs).
  destruct (g s) as [[h s']|] eqn:G; [|reflexivity]. cbn [obind]. destruct (Nat.eqb_spec h 0); [reflexivity|]. now rewrite (IH s' (P _ _ _ Hs G n)).
Qed.

Lemma u_search_w_ok w deg e n : 2 * n <= lim w -> forall fuel lo hi, lo <= hi -> hi <= n -> (lo < n \/ n = 0) ->
  u_search_w w deg e fuel lo hi = u_search deg e fuel lo hi.
Proof.
  intros Hn. induction fuel as [|f IH]; intros lo hi Hl Hh Hln; [reflexivity|]. cbn [u_search_w u_search].
  pose proof (lim_pos w). rewrite chk_ok by lia. cbn [obind]. set (m := (hi + lo) / 2).
  assert (Hm : lo <= m /\ m <= hi /\ (lo < hi -> m < hi)).
  { unfold m. split; [apply Nat.div_le_lower_bound; lia|]. split; [apply Nat.div_le_upper_bound; lia|]. intros. apply Nat.div_lt_upper_bound; lia. }
  destruct (aget deg m) as [a|]; [|reflexivity]. cbn [obind]. destruct (a <=? e).
  - destruct (aget deg (m + 1)) as [b|]; [|reflexivity]. cbn [obind]. destruct (e <? b); [reflexivity|]. apply IH; lia.
  - apply IH; lia.
Qed.
Lemma u_search_w_sound w deg e : forall fuel lo hi x, u_search_w w deg e fuel lo hi = Some x -> u_search deg e fuel lo hi = Some x /\ 2 * x < lim w.
Proof.
  induction fuel as [|f IH]; intros lo hi x H; [discriminate|]. cbn [u_search_w] in H. cbn [u_search].
  destruct (chk w (hi + lo)) as [s|] eqn:C; [|discriminate]. cbn [obind] in H. apply chk_inv in C as (-> & C). set (m := (hi + lo) / 2) in *.
  destruct (aget deg m) as [a|]; [|discriminate]. cbn [obind] in H |- *. destruct (a <=? e).
  - destruct (aget deg (m + 1)) as [b|]; [|discriminate]. cbn [obind] in H |- *. destruct (e <? b).
    + inversion H; subst x. split; [reflexivity|]. assert (2 * m <= hi + lo) by (unfold m; apply Nat.mul_div_le; lia). lia.
    + now apply IH.
  - now apply IH.
Qed.

Lemma u_of_w_gen w g h : 2 * nlv g <= lim w -> nlv g + 1 < lim w -> h <= lim w -> u_of_w w g h = u_of g h.
Proof.
  intros A B Hh. destruct h as [|p]; [reflexivity|]. unfold u_of_w, u_of. rewrite narrow_ok by lia. cbn [obind].
  destruct (edec (ntypes g) (S p)) as [[t id]|]; [|reflexivity]. cbn [obind]. unfold u_lid_w, u_lid. destruct (gtype g t) as [ed|]; [|reflexivity]. cbn [obind].
  rewrite (u_search_w_ok w (e_deg ed) id (nlv g)) by lia.
  destruct (u_search (e_deg ed) id (nlv g + 2) 0 (nlv g)) as [l|] eqn:E; [|reflexivity]. cbn [obind]. rewrite chk_ok; [reflexivity|].
  assert (l <= nlv g); [|lia]. revert E. assert (G : forall fuel lo hi, lo <= hi -> hi <= nlv g -> u_search (e_deg ed) id fuel lo hi = Some l -> l <= nlv g); [|apply G; lia].
  clear. induction fuel as [|f IH]; intros lo hi L1 L2; [discriminate|]. cbn [u_search]. set (m := (hi + lo) / 2).
  assert (lo <= m <= hi) by (unfold m; split; [apply Nat.div_le_lower_bound|apply Nat.div_le_upper_bound]; lia).
  destruct (aget (e_deg ed) m) as [a|]; [|discriminate]. cbn [obind]. destruct (a <=? id).
  - destruct (aget (e_deg ed) (m + 1)) as [b|]; [|discriminate]. cbn [obind]. destruct (id <? b); [intros E; inversion E; subst; lia|]. apply IH; lia.
  - apply IH; lia.
Qed.

(** ** what the arrays hold *)
Lemma nsum_firstn_le l k : nsum (firstn k l) <= nsum l.
Proof. revert k; induction l as [|a l IH]; intros [|k]; cbn; try lia. specialize (IH k). unfold nsum in IH. lia. Qed.
Lemma occs_snd hg n all pss : forall i u x, In (u, x) (occs hg n all i pss) ->
  if hg then i <= x < i + length pss else exists ps a b r, In ps pss /\ ps = a :: b :: r /\ x = idx all b.
Proof.
  induction pss as [|ps pss IH]; intros i u x H; [destruct H|]. cbn [occs] in H. apply in_app_iff in H as [H|H].
  - unfold locc in H. destruct hg.
    + apply filter_In in H as (H & _). apply in_map_iff in H as (v & E & _). inversion E; subst. cbn. lia.
    + destruct ps as [|a [|b r]]; [destruct H|destruct H|]. destruct (idx all a <? n); [|destruct H]. destruct H as [H|[]]. inversion H; subst. exists (a :: b :: r), a, b, r. repeat split. now left.
  - specialize (IH (S i) u x H). destruct hg.
    + cbn [length]. lia.
    + destruct IH as (ps' & a & b & r & H1 & H2 & H3). exists ps', a, b, r. repeat split; auto. now right.
Qed.
Lemma in_vals_of {A} k (l : list (nat * A)) x : In x (vals_of k l) -> In (k, x) l.
Proof. unfold vals_of. intros H. apply in_map_iff in H as ((k' & x') & E & H). apply filter_In in H as (H & E'). cbn in *. apply Nat.eqb_eq in E'. congruence. Qed.
Lemma nsum_cnt {A} (l : list (nat * A)) : forall k a, nsum (map (fun i => cnt_of i l) (seq a k)) <= length l.
Proof.
  induction l as [|[j x] l IH]; intros k a.
  - induction k as [|k IHk] in a |- *; cbn; [lia|]. specialize (IHk (S a)). unfold nsum in IHk. cbn in IHk. lia.
  - assert (G : forall k a, nsum (map (fun i => cnt_of i ((j, x) :: l)) (seq a k)) <= nsum (map (fun i => cnt_of i l) (seq a k)) + (if (a <=? j) && (j <? a + k) then 1 else 0)).
    { clear. induction k as [|k IH]; intros a; [cbn; lia|]. cbn [seq map]. specialize (IH (S a)).
      assert (C : cnt_of a ((j, x) :: l) = (if j =? a then 1 else 0) + cnt_of a l) by (unfold cnt_of, vals_of; cbn [filter fst]; destruct (j =? a); reflexivity).
      assert (nsum_c : forall z zs, nsum (z :: zs) = z + nsum zs) by reflexivity. rewrite !nsum_c, C. clear nsum_c C.
      destruct (Nat.eqb_spec j a) as [->|N]; destruct (Nat.leb_spec a a); try lia;
      repeat match goal with H : context [?p <=? ?q] |- _ => destruct (Nat.leb_spec p q) | H : context [?p <? ?q] |- _ => destruct (Nat.ltb_spec p q)
        | |- context [?p <=? ?q] => destruct (Nat.leb_spec p q) | |- context [?p <? ?q] => destruct (Nat.ltb_spec p q) end; cbn [andb] in *; lia. }
    specialize (G k a). specialize (IH k a). cbn [length]. destruct ((a <=? j) && (j <? a + k)); lia.
Qed.
Lemma flen {A} (f : A -> bool) l : length (filter f l) <= length l.
Proof. induction l as [|a l IH]; [cbn; lia|]. cbn [filter]. destruct (f a); cbn [length]; lia. Qed.
Lemma occs_len hg n all pss : forall i, length (occs hg n all i pss) <= length (concat pss).
Proof.
  induction pss as [|ps pss IH]; intros i; [cbn; lia|]. cbn [occs concat]. rewrite !app_length. specialize (IH (S i)).
  assert (length (locc hg n all i ps) <= length ps); [|lia]. unfold locc. destruct hg.
  - etransitivity; [|apply Nat.eq_le_incl, (map_length (fun v => (idx all v, i)) ps)]. apply flen.
  - destruct ps as [|a [|b r]]; [cbn; lia|cbn; lia|]. destruct (idx all a <? n); cbn [length]; lia.
Qed.

Section G.
Variables (w : nat) (me : Z) (hg : bool) (verts vws : list Z) (tys : list type_input) (g : graph).
Hypothesis HC : constructed me hg verts vws tys g.
Notation all := (verts ++ ghosts_of verts tys).
Notation HR := (proj1 (constructed_rep _ _ _ _ _ _ HC)).
Notation HH := (proj1 (proj2 (constructed_rep _ _ _ _ _ _ HC))).

Lemma gtype_inv t ed : gtype g t = Some ed -> exists es ws, nth_error tys t = Some (es, ws) /\ EdRep hg (length verts) all es (eff_wgts ws (length es)) ed.
Proof.
  intros H. destruct (Forall2_nth_r _ _ _ _ _ _ _ (rp_types _ _ _ _ _ HR) H) as ((es & ws) & E & HE).
  rewrite nth_error_map in E. destruct (nth_error tys t) as [[es' ws']|]; [|discriminate]. inversion E; subst. exists es, ws'. rewrite <- HH. split; auto.
Qed.

(** every number stored in the arrays of an edge type is at most the number of its pins, or the number of an existing vertex or edge *)
Lemma cells t ed es ws : nth_error tys t = Some (es, ws) -> gtype g t = Some ed ->
  (forall i x, aget (e_pins ed) i = Some x -> x < length all) /\
  (forall i x, aget (e_pdeg ed) i = Some x -> x <= length (concat (pins_of es))) /\
  (forall i x, aget (e_deg ed) i = Some x -> x <= length (concat (pins_of es))) /\
  (forall i x, aget (e_list ed) i = Some x -> if hyper g then x < length es else x < length all).
Proof.
  rewrite HH. intros Ht E. destruct (gtype_inv _ _ E) as (es' & ws' & Ht' & HE). rewrite Ht in Ht'. inversion Ht'; subst es' ws'. clear Ht'.
  split; [|split; [|split]]; intros i x Hx.
  - rewrite (er_pins _ _ _ _ _ _ HE), aget_ainit, nth_error_map in Hx.
    destruct (nth_error (concat (epins_of es)) i) as [v|] eqn:Ev; [|discriminate]. inversion Hx; subst. apply idx_lt. apply (er_incl _ _ _ _ _ _ HE). eapply nth_error_In; eauto.
  - assert (Hi : i <= length es) by (apply aget_lt in Hx; rewrite (er_pdlen _ _ _ _ _ _ HE) in Hx; rewrite Nat.add_1_r in Hx; apply Nat.lt_succ_r; exact Hx).
    rewrite (er_pdeg _ _ _ _ _ _ HE i Hi) in Hx. inversion Hx; subst. change (pins_of es) with (epins_of es). rewrite length_concat. apply nsum_firstn_le.
  - assert (Hi : i <= length verts) by (apply aget_lt in Hx; rewrite (er_dlen _ _ _ _ _ _ HE) in Hx; lia).
    rewrite (er_deg _ _ _ _ _ _ HE i Hi) in Hx. inversion Hx; subst. change (pins_of es) with (epins_of es). unfold off. etransitivity; [apply nsum_cnt|]. apply occs_len.
  - rewrite (er_list _ _ _ _ _ _ HE), aget_ainit in Hx. apply nth_error_In, in_concat in Hx as (l & Hl & Hx). apply in_map_iff in Hl as (u & <- & _).
    apply in_vals_of, occs_snd in Hx. destruct hg.
    + unfold epins_of in Hx. rewrite map_length in Hx. exact (proj2 Hx).
    + destruct Hx as (ps & a & b & r & H1 & -> & ->). apply idx_lt. apply (er_incl _ _ _ _ _ _ HE). apply in_concat. exists (a :: b :: r). split; auto. right. now left.
Qed.

Hypothesis HW : within w verts tys.
Lemma W1 : 2 * length verts <= lim w. Proof. apply HW. Qed.
Lemma W2 : length all + 1 < lim w. Proof. apply HW. Qed.
Lemma W3 t es ws : nth_error tys t = Some (es, ws) -> length tys * length es < lim w /\ length (concat (pins_of es)) < lim w.
Proof. intros H. apply HW with (ws := ws). eapply nth_error_In; eauto. Qed.
Lemma sizes : nlv g = length verts /\ nlv g + ngv g = length all.
Proof. destruct (c_counts _ _ _ _ _ _ HC) as (A & B). rewrite app_length. lia. Qed.

Lemma edge_number_fits t es ws i : nth_error tys t = Some (es, ws) -> i < length es -> ntypes g * i + t + 1 < lim w.
Proof.
  intros Ht Hi. destruct (W3 _ _ _ Ht) as (A & _). rewrite (c_ntypes _ _ _ _ _ _ HC). assert (t < length tys) by (apply nth_error_Some; congruence). nia.
Qed.
Lemma getEdge_w_ok t es ws i : nth_error tys t = Some (es, ws) -> i < length es -> getEdge_w w (ntypes g) i t = Some (getEdge (ntypes g) i t).
Proof. intros Ht Hi. pose proof (edge_number_fits _ _ _ _ Ht Hi). unfold getEdge_w, getEdge. rewrite chk_ok by lia. cbn [obind]. rewrite chk_ok by lia. cbn [obind]. now apply chk_ok. Qed.

Lemma vit_ok i : i <= length verts + 1 -> vit_step_w w g i = vit_step g i.
Proof.
  intros Hi. destruct sizes as (A & B). pose proof W2. rewrite app_length in *. unfold vit_step_w, vit_step. rewrite chk_ok by lia. cbn [obind].
  destruct (Nat.eqb_spec i (nlv g + 1)); [reflexivity|]. now rewrite chk_ok by lia.
Qed.
Lemma git_ok i : i <= length all + 1 -> git_step_w w g i = git_step g i.
Proof.
  intros Hi. destruct sizes as (A & B). pose proof W2. unfold git_step_w, git_step. rewrite chk_ok by lia. cbn [obind]. rewrite chk_ok by lia. cbn [obind].
  destruct (Nat.eqb_spec i (nlv g + ngv g + 1)); [reflexivity|]. now rewrite chk_ok by lia.
Qed.
Lemma all_verts_w_ok fuel : all_verts_w w g fuel = all_verts g fuel.
Proof.
  unfold all_verts_w, all_verts. apply (drain_ext (fun i => i <= length verts + 1)); [exact vit_ok| |unfold vit_begin; lia].
  intros i h i' Hi. destruct sizes as (A & _). unfold vit_step. destruct (Nat.eqb_spec i (nlv g + 1)); intros E; inversion E; subst; lia.
Qed.
Lemma all_ghosts_w_ok fuel : all_ghosts_w w g fuel = all_ghosts g fuel.
Proof.
  destruct sizes as (A & B). pose proof W2. unfold all_ghosts_w, all_ghosts, git_begin_w. rewrite app_length in *. rewrite chk_ok by lia. cbn [obind].
  apply (drain_ext (fun i => i <= length all + 1)); [exact git_ok| |unfold git_begin; rewrite app_length; lia].
  intros i h i' Hi. unfold git_step. destruct (Nat.eqb_spec i (nlv g + ngv g + 1)); intros E; inversion E; subst; rewrite app_length in *; lia.
Qed.
Lemma eit_ok it : eit_step_w w g it = eit_step g it.
Proof.
  unfold eit_step_w, eit_step. destruct (ei_end it <=? ei_loc it); [reflexivity|]. destruct (hyper g && negb (ei_hyper it)) eqn:X; [|reflexivity].
  apply andb_prop in X as (X & _). destruct (edec (ntypes g) (ei_loc it)) as [[t id]|]; [|reflexivity]. cbn [obind].
  destruct (gtype g t) as [ed|] eqn:E; [|reflexivity]. cbn [obind]. destruct (aget (e_list ed) id) as [e|] eqn:Ee; [|reflexivity]. cbn [obind].
  destruct (gtype_inv _ _ E) as (es & ws & Ht & _). destruct (cells _ _ _ _ Ht E) as (_ & _ & _ & C). specialize (C _ _ Ee). rewrite X in C.
  now rewrite (getEdge_w_ok _ _ _ _ Ht C).
Qed.
Lemma vertex_edges_w_ok h t fuel : vertex_edges_w w g h t fuel = vertex_edges g h t fuel.
Proof. unfold vertex_edges_w, vertex_edges. destruct (eit_vertex g h t) as [it|]; [|reflexivity]. cbn [obind]. apply (drain_ext (fun _ => True)); auto. intros; apply eit_ok. Qed.
Lemma all_edges_w_ok t fuel : all_edges_w w g t fuel = all_edges g t fuel.
Proof. unfold all_edges_w, all_edges. destruct (eit_begin g t) as [it|]; [|reflexivity]. cbn [obind]. apply (drain_ext (fun _ => True)); auto. intros; apply eit_ok. Qed.
Lemma owner_w_ok h : owner_w w g h = owner g h.
Proof. unfold owner_w. destruct sizes as (A & B). pose proof W2. now rewrite chk_ok by lia. Qed.

Lemma u_of_w_ok h : h <= lim w -> u_of_w w g h = u_of g h.
Proof. intros Hh. destruct sizes as (A & B). pose proof W1. pose proof W2. rewrite app_length in *. apply u_of_w_gen; lia. Qed.
Lemma v_of_w_ok h : v_of_w w g h = v_of g h.
Proof.
  unfold v_of_w, v_of. destruct (hyper g) eqn:X; [reflexivity|]. destruct (h =? 0); [reflexivity|]. destruct (edec (ntypes g) h) as [[t id]|]; [|reflexivity]. cbn [obind].
  destruct (gtype g t) as [ed|] eqn:E; [|reflexivity]. cbn [obind]. destruct (aget (e_list ed) id) as [x|] eqn:Ee; [|reflexivity]. cbn [obind].
  destruct (gtype_inv _ _ E) as (es & ws & Ht & _). destruct (cells _ _ _ _ Ht E) as (_ & _ & _ & C). specialize (C _ _ Ee). rewrite X in C.
  pose proof W2. now rewrite chk_ok by lia.
Qed.
Lemma pins_begin_w_ok h : (hyper g = false -> h <= lim w) -> pins_begin_w w g h = pins_begin g h.
Proof.
  intros Hh. unfold pins_begin_w, pins_begin. destruct (edec (ntypes g) h) as [[t id]|]; [|reflexivity]. cbn [obind]. destruct (gtype g t) as [ed|] eqn:E; [|reflexivity]. cbn [obind].
  destruct (hyper g) eqn:X; [reflexivity|]. rewrite u_of_w_ok by auto. destruct (u_of g h) as [u|]; [|reflexivity]. cbn [obind].
  destruct (aget (e_list ed) id) as [x|] eqn:Ee; [|reflexivity]. cbn [obind].
  destruct (gtype_inv _ _ E) as (es & ws & Ht & _). destruct (cells _ _ _ _ Ht E) as (_ & _ & _ & C). specialize (C _ _ Ee). rewrite X in C. pose proof W2. now rewrite chk_ok by lia.
Qed.
Lemma pit_ok it : pit_step_w w g it = pit_step g it.
Proof.
  destruct it as [t loc fin|loc fin]; [|reflexivity]. cbn [pit_step_w pit_step]. destruct (loc =? fin); [reflexivity|]. destruct (gtype g t) as [ed|] eqn:E; [|reflexivity]. cbn [obind].
  destruct (aget (e_pins ed) loc) as [x|] eqn:Ex; [|reflexivity]. cbn [obind]. destruct (gtype_inv _ _ E) as (es & ws & Ht & _). destruct (cells _ _ _ _ Ht E) as (C & _). specialize (C _ _ Ex).
  pose proof W2. now rewrite chk_ok by lia.
Qed.
Lemma edge_pins_w_ok h fuel : (hyper g = false -> h <= lim w) -> edge_pins_w w g h fuel = edge_pins g h fuel.
Proof. intros Hh. unfold edge_pins_w, edge_pins. rewrite pins_begin_w_ok by auto. destruct (pins_begin g h) as [it|]; [|reflexivity]. cbn [obind]. apply (drain_ext (fun _ => True)); auto. intros; apply pit_ok. Qed.
Lemma adj_ok it : adj_step_w w g it = adj_step g it.
Proof.
  unfold adj_step_w, adj_step. destruct (hyper g) eqn:X.
  - destruct (edegree g (gi_edge it)) as [d|] eqn:Ed; [|reflexivity]. cbn [obind]. destruct (Nat.leb_spec d (gi_count it)) as [L|L].
    + rewrite eit_ok. destruct (eit_step g (gi_eit it)) as [[e eit']|]; [|reflexivity]. cbn [obind]. destruct (e =? 0); [reflexivity|].
      rewrite pins_begin_w_ok by congruence. destruct (pins_begin g e) as [p|]; [|reflexivity]. cbn [obind]. rewrite pit_ok. destruct (pit_step g p) as [[x p']|]; [|reflexivity]. cbn [obind].
      pose proof W2. now rewrite chk_ok by lia.
    + destruct (gi_pit it) as [p|]; [|reflexivity]. cbn [obind]. rewrite pit_ok. destruct (pit_step g p) as [[x p']|]; [|reflexivity]. cbn [obind]. rewrite chk_ok; [reflexivity|].
      unfold edegree in Ed. rewrite X in Ed. cbn [negb] in Ed. destruct (gi_edge it =? 0); [inversion Ed; subst; lia|].
      destruct (edec (ntypes g) (gi_edge it)) as [[t id]|]; [|discriminate]. cbn [obind] in Ed. destruct (gtype g t) as [ed|] eqn:E; [|discriminate]. cbn [obind] in Ed.
      destruct (aget (e_pdeg ed) (id + 1)) as [a|] eqn:Ea; [|discriminate]. cbn [obind] in Ed. destruct (aget (e_pdeg ed) id) as [b|]; [|discriminate]. inversion Ed; subst d.
      destruct (gtype_inv _ _ E) as (es & ws & Ht & _). destruct (cells _ _ _ _ Ht E) as (_ & C & _). specialize (C _ _ Ea). destruct (W3 _ _ _ Ht). lia.
  - rewrite eit_ok. destruct (eit_step g (gi_eit it)) as [[e eit']|]; [|reflexivity]. cbn [obind]. now rewrite v_of_w_ok.
Qed.
Lemma adjacent_w_ok h t fuel : adjacent_w w g h t fuel = adjacent g h t fuel.
Proof. unfold adjacent_w, adjacent. destruct (adj_begin g h t) as [it|]; [|reflexivity]. cbn [obind]. apply (drain_ext (fun _ => True)); auto. intros; apply adj_ok. Qed.
End G.

(** ** the second adjacencies *)
Lemma foldM_ext_inv {X St} (I : list X -> St -> Prop) (f g : St -> X -> option St) : forall l pre s,
  (forall p x q st, pre ++ l = p ++ x :: q -> I p st -> f st x = g st x /\ forall st', g st x = Some st' -> I (p ++ [x]) st') ->
  I pre s -> foldM f l s = foldM g l s.
Proof.
  induction l as [|x l IH]; intros pre s H Hs; [reflexivity|]. cbn [foldM]. destruct (H pre x l s eq_refl Hs) as (E & P). rewrite E.
  destruct (g s x) as [s'|] eqn:G; [|reflexivity]. cbn [obind]. apply (IH (pre ++ [x])); [|auto]. intros p y q st E'. apply (H p y q st). rewrite <- app_assoc in E'. exact E'.
Qed.
Lemma nsum_part {X} (f : X -> nat) hs p x q : hs = p ++ x :: q -> nsum (map f p) + f x <= nsum (map f hs).
Proof. intros ->. rewrite map_app, nsum_app. cbn [map]. change (nsum (f x :: map f q)) with (f x + nsum (map f q)). lia. Qed.
Lemma uniq_len h l : length (uniq_adj h l) <= length l.
Proof. apply NoDup_incl_length; [apply uniq_nodup|]. intros x Hx. now apply uniq_in in Hx as (Hx & _). Qed.

Section SA.
Variables (w wi n : nat) (row : nat -> option (list nat)) (lid : nat -> option nat) (ord : nat -> list nat -> list nat) (compress : bool) (hs : list nat).
Variable R : nat -> list nat.
Hypothesis HR : forall h, In h hs -> row h = Some (R h).
Hypothesis HO : ord_ok ord.
Hypothesis Hn : length hs = n.
Notation total := (nsum (map (fun h => length (R h)) hs)).
Hypothesis B1 : n + 1 < lim wi.
Hypothesis B2 : total < lim wi.
Hypothesis B3 : total < lim w.
Notation ln h := (if compress then length (uniq_adj h (R h)) else length (R h)).

Lemma ln_le h : ln h <= length (R h).
Proof. destruct compress; [apply uniq_len|lia]. Qed.
Lemma sum_ln l : nsum (map (fun h => ln h) l) <= nsum (map (fun h => length (R h)) l).
Proof. induction l as [|a l IH]; [cbn; lia|]. cbn [map]. pose proof (ln_le a). unfold nsum in *. cbn [fold_right]. lia. Qed.

Lemma sa_offsets_w_ok : sa_offsets_w w wi n row compress hs = sa_offsets n row compress hs.
Proof.
  unfold sa_offsets_w, sa_offsets. destruct (aset (anew (n + 1)) 0 0) as [o0|] eqn:E0; [|reflexivity]. cbn [obind].
  erewrite (foldM_ext_inv (fun pre (st : arr nat * nat) => snd st = S (length pre) /\ aget (fst st) (length pre) = Some (nsum (map (fun h => ln h) pre))) _ _ hs []); [reflexivity| |].
  2:{ cbn. split; [reflexivity|]. unfold aset in E0. destruct (0 <? length (anew (n + 1))) eqn:L; [|discriminate]. inversion E0; subst. apply aget_upd_eq. now apply Nat.ltb_lt in L. }
  intros p x q [off id] Ehs (E1 & E2). cbn [fst snd app] in *. subst id. rewrite (HR x) by (eapply nth_error_In with (n := length p); rewrite Ehs, nth_error_app2, Nat.sub_diag by lia; reflexivity). cbn [obind].
  replace (S (length p) - 1) with (length p) by lia. rewrite E2. pose proof (nsum_part (fun h => length (R h)) hs p x q Ehs) as P. cbv beta in P. pose proof (sum_ln p) as Q. pose proof (ln_le x) as Q'.
  rewrite chk_ok by lia. cbn [obind].
  assert (L : length p < n) by (rewrite <- Hn, Ehs, app_length; cbn [length]; lia).
  rewrite chk_ok by lia. cbn [obind]. split.
  - destruct (aset off (S (length p)) _) as [off'|]; [|reflexivity]. cbn [obind]. now rewrite chk_ok by lia.
  - intros st' E. destruct (aset off (S (length p)) _) as [off'|] eqn:EA; [|discriminate]. cbn [obind] in E. inversion E; subst. cbn [fst snd]. rewrite app_length. cbn [length]. split; [lia|].
    unfold aset in EA. destruct (S (length p) <? length off) eqn:L'; [|discriminate]. inversion EA; subst. replace (length p + 1) with (S (length p)) by lia.
    rewrite aget_upd_eq by (now apply Nat.ltb_lt in L'). rewrite map_app, nsum_app. cbn [map]. unfold nsum at 3. cbn [fold_right]. f_equal. lia.
Qed.

Lemma put_w xs : forall ls id, id + length xs < lim wi ->
  foldM (fun '(ls, id) x => l <- lid x ;; ls' <- aset ls id l ;; id' <- chk wi (id + 1) ;; Some (ls', id')) xs (ls, id) =
  foldM (fun '(ls, id) x => l <- lid x ;; ls' <- aset ls id l ;; Some (ls', id + 1)) xs (ls, id) /\
  forall st, foldM (fun '(ls, id) x => l <- lid x ;; ls' <- aset ls id l ;; Some (ls', id + 1)) xs (ls, id) = Some st -> snd st = id + length xs.
Proof.
  induction xs as [|x xs IH]; intros ls id H.
  - split; [reflexivity|]. intros st E. inversion E; subst. cbn. lia.
  - cbn [foldM length] in *. destruct (lid x) as [l|]; cbn [obind]; [|split; [reflexivity|discriminate]]. destruct (aset ls id l) as [ls'|]; cbn [obind]; [|split; [reflexivity|discriminate]].
    rewrite chk_ok by lia. cbn [obind]. destruct (IH ls' (id + 1)) as (A & B); [lia|]. split; [exact A|]. intros st E. apply B in E. lia.
Qed.
Lemma sa_lists_w_ok tot : sa_lists_w wi tot row lid ord compress hs = sa_lists tot row lid ord compress hs.
Proof.
  unfold sa_lists_w, sa_lists.
  erewrite (foldM_ext_inv (fun pre (st : arr nat * nat) => snd st = nsum (map (fun h => ln h) pre)) _ _ hs []); [reflexivity| |reflexivity].
  intros p x q [ls id] Ehs E. cbn [fst snd app] in *. subst id. rewrite (HR x) by (eapply nth_error_In with (n := length p); rewrite Ehs, nth_error_app2, Nat.sub_diag by lia; reflexivity). cbn [obind].
  pose proof (nsum_part (fun h => length (R h)) hs p x q Ehs) as P. cbv beta in P. pose proof (sum_ln p) as Q. pose proof (ln_le x) as Q'.
  assert (EL : length (if compress then ord x (uniq_adj x (R x)) else R x) = ln x).
  { destruct compress; [|reflexivity]. apply Permutation_length, HO. }
  destruct (put_w (if compress then ord x (uniq_adj x (R x)) else R x) ls (nsum (map (fun h => ln h) p))) as (A & B); [rewrite EL; lia|].
  split; [exact A|]. intros st' E. apply B in E. rewrite E, EL, map_app, nsum_app. cbn [map]. unfold nsum at 3. cbn [fold_right]. lia.
Qed.
Lemma sa_make_w_ok : sa_make_w w wi n row lid ord compress hs = sa_make n row lid ord compress hs.
Proof.
  unfold sa_make_w, sa_make. rewrite sa_offsets_w_ok. destruct (sa_offsets n row compress hs) as [off|]; [|reflexivity]. cbn [obind].
  destruct (aget off n) as [tot|]; [|reflexivity]. cbn [obind]. now rewrite sa_lists_w_ok.
Qed.
End SA.

(** the loop over one row of the table *)
Lemma sa_loop_w_ok w wi nt num enc tb s m tot fin : 0 < nt -> sa_get tb 0 = Some s -> num 0 = Some m -> aget (sa_off s) m = Some tot -> tot < 2 ^ wi ->
  (forall i x, aget (sa_list s) i = Some x -> enc x 0 < lim w) -> forall fuel q, q <= fin -> fin * nt + nt + 1 < lim w ->
  sa_loop (sa_iterate_w w wi nt num enc tb) fuel (fin * nt + nt + 0 + 1) (q * nt + 0 + 1) = sa_loop (sa_iterate nt num enc tb) fuel (fin * nt + nt + 0 + 1) (q * nt + 0 + 1).
Proof.
  intros Hnt Hs Hm Ht Hw He. induction fuel as [|f IH]; intros q Hq Hf; [reflexivity|]. cbn [sa_loop]. unfold sa_iterate_w, sa_iterate.
  assert (Ed : edec nt (q * nt + 0 + 1) = Some (0, q)).
  { replace (q * nt + 0 + 1) with (getEdge nt q 0) by (unfold getEdge; lia). apply edec_getEdge. auto. }
  rewrite Ed. cbn [obind]. rewrite Hs. cbn [obind]. rewrite Hm. cbn [obind]. rewrite Ht. cbn [obind]. rewrite (Nat.mod_small tot) by auto.
  assert (Er : (if tot <=? q then Some 0 else x <- aget (sa_list s) q ;; chk w (enc x 0)) = (if tot <=? q then Some 0 else x <- aget (sa_list s) q ;; Some (enc x 0))).
  { destruct (tot <=? q); [reflexivity|]. destruct (aget (sa_list s) q) as [x|] eqn:Ex; [|reflexivity]. cbn [obind]. apply chk_ok. eauto. }
  rewrite Er. clear Er. destruct (if tot <=? q then Some 0 else x <- aget (sa_list s) q ;; Some (enc x 0)) as [r|]; [|reflexivity]. cbn [obind].
  rewrite narrow_ok by nia. cbn [obind]. destruct (Nat.eqb_spec (q * nt + nt + 1) (fin * nt + nt + 0 + 1)) as [|N]; [reflexivity|].
  replace (q * nt + nt + 1) with (S q * nt + 0 + 1) by lia. rewrite IH; [reflexivity| |auto].
  assert (q <> fin) by (intros ->; lia). lia.
Qed.

(** ** C71 *)
Lemma adjacent_w_small w g h t fuel l : adjacent_w w g h t fuel = Some l -> Forall (fun x => x < lim w) l.
Proof.
  unfold adjacent_w. destruct (adj_begin g h t) as [it|] eqn:E; [|discriminate]. cbn [obind].
  apply (drain_all (fun s => hyper g = true -> match gi_pit s with Some (PTrad _ _) => False | _ => True end)).
  - clear. intros s x s' Hs F. unfold adj_step_w in F. pose proof (lim_pos w). destruct (hyper g) eqn:Hh.
    + specialize (Hs eq_refl). assert (PB : forall e p, pins_begin_w w g e = Some p -> match p with PTrad _ _ => False | _ => True end).
      { intros e p. unfold pins_begin_w. rewrite Hh. destruct (edec (ntypes g) e) as [[t id]|]; [|discriminate]. cbn [obind]. destruct (gtype g t) as [ed|]; [|discriminate]. cbn [obind].
        destruct (aget (e_pdeg ed) id); [|discriminate]. cbn [obind]. destruct (aget (e_pdeg ed) (id + 1)); [|discriminate]. intros X; inversion X; exact I. }
      assert (PS : forall p x p', match p with PTrad _ _ => False | _ => True end -> pit_step_w w g p = Some (x, p') -> x < lim w /\ match p' with PTrad _ _ => False | _ => True end).
      { intros [t loc fin|] y p' Hp; [|destruct Hp]. cbn [pit_step_w]. destruct (loc =? fin); [intros X; inversion X; auto|]. destruct (gtype g t) as [ed|]; [|discriminate]. cbn [obind]. destruct (aget (e_pins ed) loc) as [c|]; [|discriminate]. cbn [obind].
        destruct (chk w (c + 1)) as [c'|] eqn:C; [|discriminate]. cbn [obind]. intros X; inversion X; subst. apply chk_inv in C as (-> & C). auto. }
      destruct (edegree g (gi_edge s)) as [d|]; [|discriminate]. cbn [obind] in F. destruct (d <=? gi_count s).
      * destruct (eit_step_w w g (gi_eit s)) as [[e eit']|]; [|discriminate]. cbn [obind] in F. destruct (e =? 0); [inversion F; subst; split; [lia|cbn; auto]|].
        destruct (pins_begin_w w g e) as [p|] eqn:P1; [|discriminate]. cbn [obind] in F. destruct (pit_step_w w g p) as [[y p']|] eqn:P2; [|discriminate]. cbn [obind] in F. destruct (chk w 1); [|discriminate]. inversion F; subst.
        destruct (PS _ _ _ (PB _ _ P1) P2) as (A & B). cbn [gi_pit]. split; auto.
      * destruct (gi_pit s) as [p|]; [|discriminate]. cbn [obind] in F. destruct (pit_step_w w g p) as [[y p']|] eqn:P2; [|discriminate]. cbn [obind] in F. destruct (chk w (gi_count s + 1)); [|discriminate]. inversion F; subst.
        destruct (PS _ _ _ Hs P2) as (A & B). cbn [gi_pit]. split; auto.
    + split; [|congruence]. intros _. destruct (eit_step_w w g (gi_eit s)) as [[e eit']|]; [|discriminate]. cbn [obind] in F. destruct (v_of_w w g e) as [y|] eqn:V; [|discriminate]. cbn [obind] in F. inversion F; subst.
      unfold v_of_w in V. rewrite Hh in V. destruct (e =? 0); [inversion V; subst; lia|]. destruct (edec (ntypes g) e) as [[t id]|]; [|discriminate]. cbn [obind] in V. destruct (gtype g t) as [ed|]; [|discriminate]. cbn [obind] in V.
      destruct (aget (e_list ed) id) as [c|]; [|discriminate]. cbn [obind] in V. apply chk_inv in V as (-> & V). auto.
  - unfold adj_begin in E. destruct (eit_vertex g h t); [|discriminate]. inversion E; subst. cbn. auto.
Qed.
Lemma getEdge_w_inv w nt l t h : getEdge_w w nt l t = Some h -> h = getEdge nt l t /\ h < lim w.
Proof.
  unfold getEdge_w. destruct (chk w (nt * l)) as [a|] eqn:A; [|discriminate]. cbn [obind]. apply chk_inv in A as (-> & _).
  destruct (chk w (nt * l + t)) as [b|] eqn:B; [|discriminate]. cbn [obind]. apply chk_inv in B as (-> & _). intros C. apply chk_inv in C as (-> & C). split; auto.
Qed.
(** Within the size limits nothing overflows: every access function and iterator computes on machine integers what the model of the
    other claims computes on unbounded ones. *)
Theorem C71_exact w me hg verts vws tys g : constructed me hg verts vws tys g -> within w verts tys ->
  (forall l, l < length (verts ++ ghosts_of verts tys) -> getVertex_w w l = Some (getVertex l) /\ owner_w w g (getVertex l) = owner g (getVertex l)) /\
  (forall fuel, all_verts_w w g fuel = all_verts g fuel /\ all_ghosts_w w g fuel = all_ghosts g fuel) /\
  (forall t fuel, all_edges_w w g t fuel = all_edges g t fuel) /\
  (forall l t fuel, l < length verts -> vertex_edges_w w g (getVertex l) t fuel = vertex_edges g (getVertex l) t fuel /\
     adjacent_w w g (getVertex l) t fuel = adjacent g (getVertex l) t fuel) /\
  (forall t es ws i, nth_error tys t = Some (es, ws) -> i < length es ->
     let h := getEdge (ntypes g) i t in
     getEdge_w w (ntypes g) i t = Some h /\ u_of_w w g h = u_of g h /\ v_of_w w g h = v_of g h /\
     forall fuel, edge_pins_w w g h fuel = edge_pins g h fuel).
Proof.
  intros HC HW. split; [|split; [|split; [|split]]].
  - intros l Hl. pose proof (W2 w verts tys HW). split; [unfold getVertex_w, getVertex; apply chk_ok; lia|]. eapply owner_w_ok; eauto.
  - intros fuel. split; [eapply all_verts_w_ok; eauto|eapply all_ghosts_w_ok; eauto].
  - intros. eapply all_edges_w_ok; eauto.
  - intros. split; [eapply vertex_edges_w_ok; eauto|eapply adjacent_w_ok; eauto].
  - intros t es ws i Ht Hi h. pose proof (edge_number_fits w me hg verts vws tys g HC HW t es ws i Ht Hi) as L. split; [eapply getEdge_w_ok; eauto|].
    split; [eapply u_of_w_ok; eauto; unfold h, getEdge; lia|]. split; [eapply v_of_w_ok; eauto|]. intros fuel. eapply edge_pins_w_ok; eauto. intros _. unfold h, getEdge. lia.
Qed.
Print Assumptions C71_exact.

(** The numbers kept in the arrays: offsets are at most the number of pins of the type, the rest are numbers of vertices or edges; so
    nothing is truncated when stored. *)
Theorem C71_stored me hg verts vws tys g t es ws ed : constructed me hg verts vws tys g -> nth_error tys t = Some (es, ws) -> gtype g t = Some ed ->
  (forall i x, aget (e_pins ed) i = Some x -> x < length (verts ++ ghosts_of verts tys)) /\
  (forall i x, aget (e_pdeg ed) i = Some x -> x <= length (concat (pins_of es))) /\
  (forall i x, aget (e_deg ed) i = Some x -> x <= length (concat (pins_of es))) /\
  (forall i x, aget (e_list ed) i = Some x -> if hg then x < length es else x < length (verts ++ ghosts_of verts tys)).
Proof.
  intros HC Ht E. pose proof (cells me hg verts vws tys g HC t ed es ws Ht E) as H. destruct (constructed_rep _ _ _ _ _ _ HC) as (_ & Hh & _). rewrite Hh in H. exact H.
Qed.
Print Assumptions C71_stored.

(** u(edge) computes (low+high)/2 in lid_t.  No edge whose source has number 2^(w-2) or more can be looked up, although
    numbers up to 2^(w-1)-1 can be represented. *)
Lemma u_of_w_small w g h x : u_of_w w g h = Some x -> 2 * (x - 1) < 2 ^ (w - 1) /\ (h <= 2 ^ (w - 1) -> u_of g h = Some x).
Proof.
  destruct h as [|p]; [discriminate|]. cbn [u_of_w]. destruct (narrow w p) as [k|] eqn:N; [|discriminate]. cbn [obind].
  destruct (edec (ntypes g) (S k)) as [[t id]|] eqn:Ed; [|discriminate]. cbn [obind]. unfold u_lid_w. destruct (gtype g t) as [ed|] eqn:Et; [|discriminate]. cbn [obind].
  destruct (u_search_w w (e_deg ed) id (nlv g + 2) 0 (nlv g)) as [l|] eqn:U; [|discriminate]. cbn [obind]. intros C. apply chk_inv in C as (-> & _).
  apply u_search_w_sound in U as (U & L). split; [replace (l + 1 - 1) with l by lia; exact L|]. intros Hp. change (2 ^ (w - 1)) with (lim w) in Hp. rewrite narrow_ok in N by lia.
  inversion N; subst k. unfold u_of. rewrite Ed. cbn [obind]. unfold u_lid. rewrite Et. cbn [obind]. now rewrite U.
Qed.
Theorem C71_source_lookup w me verts vws tys g t es ws l v fuel hs h : constructed me false verts vws tys g -> nth_error tys t = Some (es, ws) ->
  nth_error verts l = Some v -> vertex_edges g (getVertex l) t fuel = Some hs -> length (out_dests v es) < fuel -> In h hs -> h <= 2 ^ (w - 1) -> 2 ^ (w - 1) <= 2 * l ->
  u_of g h = Some (getVertex l) /\ u_of_w w g h = None.
Proof.
  intros HC Ht Hl Hv Hf Hh Hs Hw. destruct (C04_out_edges me verts vws tys g t es ws l v fuel HC Ht Hl Hf) as (hs' & ds & E & _ & _ & U & _). rewrite Hv in E. inversion E; subst hs'.
  specialize (U h Hh). split; [exact U|]. destruct (u_of_w w g h) as [x|] eqn:X; [|reflexivity]. apply u_of_w_small in X as (A & B). specialize (B Hs). rewrite U in B. inversion B; subst x. unfold getVertex in A. lia.
Qed.
Print Assumptions C71_source_lookup.

Lemma nodup_zseq n : NoDup (map Z.of_nat (seq 0 n)).
Proof. apply FinFun.Injective_map_NoDup; [intros a b; lia|apply seq_NoDup]. Qed.
Lemma in_zseq n k : k < n -> In (Z.of_nat k) (map Z.of_nat (seq 0 n)).
Proof. intros. apply in_map, in_seq. lia. Qed.
Lemma first_occ_nil seen l : incl l seen -> first_occ seen l = [].
Proof.
  induction l as [|v l IH]; intros H; [reflexivity|]. cbn [first_occ]. replace (existsb (Z.eqb v) seen) with true; [apply IH; intros x Hx; apply H; now right|].
  symmetry. apply existsb_exists. exists v. split; [apply H; now left|]. apply Z.eqb_refl.
Qed.
Theorem C71_midpoint_refuted w : 4 <= w -> exists verts es g, constructed 0 false verts [] [(es, [])] g /\ local_sources verts es /\
  length verts = 2 ^ (w - 2) + 1 /\ length (verts ++ ghosts_of verts [(es, [])]) + 1 < 2 ^ (w - 1) /\ length es = 1 /\
  u_of g (getEdge 1 0 0) = Some (getVertex (2 ^ (w - 2))) /\ u_of_w w g (getEdge 1 0 0) = None.
Proof.
  intros Hw. set (k := 2 ^ (w - 2)). set (verts := map Z.of_nat (seq 0 (k + 1))). set (es := [(0%Z, [Z.of_nat k; 0%Z])] : list edge_input). set (tys := [(es, [])] : list type_input).
  assert (K2 : 2 ^ (w - 1) = 2 * k) by (unfold k; replace (w - 1) with (S (w - 2)) by lia; reflexivity).
  assert (K4 : 4 <= k) by (unfold k; change 4 with (2 ^ 2); apply Nat.pow_le_mono_r; lia).
  assert (Hlen : length verts = k + 1) by (unfold verts; now rewrite map_length, seq_length).
  assert (Hin : incl [Z.of_nat k; 0%Z] verts).
  { intros x [<-|[<-|[]]]; [apply in_zseq; lia|]. change 0%Z with (Z.of_nat 0). apply in_zseq. lia. }
  assert (Hg : ghosts_of verts tys = []) by (apply first_occ_nil; exact Hin).
  assert (HV : valid_input false verts [] tys).
  { split; [apply nodup_zseq|]. split; [cbn; lia|]. split; [cbn; lia|]. intros es' ws' [H|[]]. inversion H; subst. split; [auto|]. intros _ e [<-|[]]. reflexivity. }
  assert (HL : local_sources verts es) by (intros e u x [<-|[]] E; inversion E; subst; apply Hin; now left).
  destruct (construction_total 0 false verts [] tys [] HV) as (g & Eg & _).
  assert (HC : constructed 0 false verts [] tys g) by (split; auto).
  assert (HU : u_of g (getEdge 1 0 0) = Some (getVertex k)).
  { destruct (C05_source_unique _ _ _ _ _ 0 es [] 0 HC eq_refl HL) as (l & U & Ll & P); [cbn; lia|].
    rewrite (c_ntypes _ _ _ _ _ _ HC) in U, P. change (length tys) with 1 in U, P. rewrite U. do 2 f_equal.
    assert (Hnth : nth_error verts l = Some (Z.of_nat l)) by (unfold verts; rewrite nth_error_map, nth_error_seq by lia; reflexivity).
    destruct (C04_out_edges 0 verts [] tys g 0 es [] l (Z.of_nat l) (S (length (out_dests (Z.of_nat l) es))) HC eq_refl Hnth) as (hs & ds & E & D1 & D2 & _); [lia|].
    pose proof (proj2 (P l _ hs Ll E) eq_refl) as Hin'. apply mapM_length in D1. apply mapM_length in D2.
    destruct (Z.eq_dec (Z.of_nat k) (Z.of_nat l)) as [|N]; [lia|]. exfalso.
    assert (OD : out_dests (Z.of_nat l) es = []) by (unfold es, out_dests; cbn [flat_map snd]; destruct (Z.eqb_spec (Z.of_nat k) (Z.of_nat l)); [congruence|reflexivity]).
    rewrite OD in D2. cbn [length] in D2. destruct hs as [|h hs]; [destruct Hin'|]. cbn [length] in D1. lia. }
  exists verts, es, g. split; [exact HC|]. split; [exact HL|]. split; [exact Hlen|].
  split; [fold tys; rewrite Hg, app_nil_r, Hlen, K2; lia|]. split; [reflexivity|]. split; [exact HU|].
  destruct (u_of_w w g (getEdge 1 0 0)) as [x|] eqn:X; [|reflexivity]. apply u_of_w_small in X as (A & B). rewrite HU in B. assert (Some (getVertex k) = Some x) as E by (apply B; unfold getEdge; lia).
  inversion E; subst x. unfold getVertex in A. lia.
Qed.
Print Assumptions C71_midpoint_refuted.

(** In a hypergraph the edges of a vertex are handed out as num_types*edge+type+1 computed in lid_t, those of the whole part in
    uintptr_t.  An edge whose handle exceeds lid_t is listed by the loop over all edges, but asking for the edges of one of its pins is undefined. *)
Theorem C71_edge_handle w me verts vws tys g t es ws l v i fuel : constructed me true verts vws tys g -> nth_error tys t = Some (es, ws) ->
  nth_error verts l = Some v -> In i (incident v es) -> 2 ^ (w - 1) <= getEdge (ntypes g) i t ->
  vertex_edges_w w g (getVertex l) t fuel = None /\
  exists hs, all_edges_w w g t (S (length es)) = Some hs /\ In (getEdge (ntypes g) i t) hs.
Proof.
  intros HC Ht Hl Hi Hw. destruct (constructed_rep _ _ _ _ _ _ HC) as (HR & Hh & _). split.
  - destruct (vertex_edges_w w g (getVertex l) t fuel) as [hs|] eqn:E; [|reflexivity]. exfalso.
    destruct (C03_incidence_inverse me verts vws tys g t es ws l v (fuel + S (length (incident v es))) HC Ht Hl) as (EV & _); [lia|].
    unfold vertex_edges_w in E. unfold vertex_edges in EV. unfold eit_vertex in E, EV. destruct (vlid (getVertex l)) as [l0|]; [|discriminate]. cbn [obind] in E, EV. destruct (gtype g t) as [ed|]; [|discriminate]. cbn [obind] in E, EV.
    destruct (aget (e_deg ed) l0) as [o|]; [|discriminate]. cbn [obind] in E, EV. destruct (vdegree g (getVertex l) t) as [d|]; [|discriminate]. cbn [obind] in E, EV.
    assert (G : forall s, ei_hyper s = false -> forall fuel' l', drain (eit_step_w w g) fuel' s = Some l' -> forall k, drain (eit_step g) (fuel' + k) s = Some l' /\ Forall (fun h => h < lim w) l').
    { clear - Hh. intros s Hs fuel'. revert s Hs. induction fuel' as [|n IH]; intros s Hs l' E k; [discriminate|]. cbn [drain plus] in *. unfold eit_step_w at 1 in E. unfold eit_step at 1. rewrite Hh, Hs in *. cbn [andb negb] in *.
      destruct (ei_end s <=? ei_loc s); [cbn [obind] in *; inversion E; subst; split; [reflexivity|constructor]|].
      destruct (edec (ntypes g) (ei_loc s)) as [[t id]|]; [|discriminate]. cbn [obind] in *. destruct (gtype g t) as [ed|]; [|discriminate]. cbn [obind] in *. destruct (aget (e_list ed) id) as [e|]; [|discriminate]. cbn [obind] in *.
      destruct (getEdge_w w (ntypes g) e t) as [h|] eqn:GE; [|discriminate]. cbn [obind] in *. apply getEdge_w_inv in GE as (-> & GL). fold (getEdge (ntypes g) e t).
      destruct (getEdge (ntypes g) e t =? 0); [inversion E; subst; split; [reflexivity|constructor]|].
      destruct (drain (eit_step_w w g) n _) as [r|] eqn:D; [|discriminate]. cbn [obind] in E. inversion E; subst. eapply IH in D; [|reflexivity]. destruct (D) as (D1 & D2). rewrite D1. split; [reflexivity|]. constructor; auto. }
    eapply G in E; [|reflexivity]. destruct E as (E1 & E2). rewrite E1 in EV. inversion EV; subst hs. rewrite Forall_forall in E2.
    specialize (E2 (getEdge (ntypes g) i t)). change (2 ^ (w - 1)) with (lim w) in Hw. assert (getEdge (ntypes g) i t < lim w); [|lia]. apply E2. apply (in_map (fun i => getEdge (ntypes g) i t)). exact Hi.
  - exists (map (fun i => getEdge (ntypes g) i t) (seq 0 (length es))). split.
    + transitivity (all_edges g t (S (length es))); [|apply (all_edges_ok g verts _ _ _ HR t es _ (S (length es)) (nth_eff _ _ _ _ Ht)); apply Nat.lt_succ_diag_r]. unfold all_edges_w, all_edges, eit_begin. destruct (num_edges g t) as [ne|]; [|reflexivity]. cbn [obind].
      apply (drain_ext (fun it => ei_hyper it = true)).
      * intros s Hs. unfold eit_step_w, eit_step. rewrite Hs. now rewrite andb_false_r.
      * intros s h s' Hs E _. unfold eit_step in E. rewrite Hs, andb_false_r in E. destruct (ei_end s <=? ei_loc s); inversion E; subst; auto.
      * rewrite <- Hh. reflexivity.
    + apply (in_map (fun i => getEdge (ntypes g) i t)), in_seq. unfold incident in Hi. apply in_flat_map in Hi as (p & Hp & Hi). apply repeat_spec in Hi. destruct p as (j & e). apply in_combine_l, in_seq in Hp. cbn in Hi. lia.
Qed.
Print Assumptions C71_edge_handle.

Lemma incident_in v es i : In i (incident v es) <-> exists e, nth_error es i = Some e /\ In v (snd e).
Proof. exact (SecondAdjProps.incident_in v es i). Qed.
Lemma concat_repeat_len {A} (x : A) n : length (concat (repeat [x] n)) = n.
Proof. induction n as [|n IH]; [reflexivity|]. cbn [repeat concat app length]. now rewrite IH. Qed.
Lemma incl_concat_repeat {A} (x : A) n l : In x l -> incl (concat (repeat [x] n)) l.
Proof. intros H y Hy. apply in_concat in Hy as (z & Hz & Hy). apply repeat_spec in Hz. subst z. destruct Hy as [<-|[]]. exact H. Qed.
(** such graphs exist for every width, with every count below 2^(w-1) *)
Theorem C71_edge_handle_refuted w fuel : 4 <= w -> exists es g, let tys := [(es, []); ([], [])] in
  constructed 0 true [0%Z] [] tys g /\ length es < 2 ^ (w - 1) /\ length (concat (pins_of es)) < 2 ^ (w - 1) /\ length ([0%Z] ++ ghosts_of [0%Z] tys) + 1 < 2 ^ (w - 1) /\
  In (2 ^ (w - 2)) (incident 0%Z es) /\ vertex_edges_w w g (getVertex 0) 0 fuel = None.
Proof.
  intros Hw. set (k := 2 ^ (w - 2)). set (es := repeat (0%Z, [0%Z]) (k + 1) : list edge_input). exists es. set (tys := [(es, []); ([], [])] : list type_input).
  assert (K2 : 2 ^ (w - 1) = 2 * k) by (unfold k; replace (w - 1) with (S (w - 2)) by lia; reflexivity).
  assert (K4 : 4 <= k) by (unfold k; change 4 with (2 ^ 2); apply Nat.pow_le_mono_r; lia).
  assert (HP : pins_of es = repeat [0%Z] (k + 1)) by (unfold es, pins_of; clear; induction (k + 1) as [|n IH]; [reflexivity|]; cbn [repeat map snd]; now rewrite IH).
  assert (Hg : ghosts_of [0%Z] tys = []).
  { apply first_occ_nil. unfold all_pins, tys. cbn [flat_map fst]. rewrite HP. intros x Hx. apply in_app_iff in Hx as [Hx|Hx]; [|cbn in Hx; destruct Hx]. revert x Hx. apply incl_concat_repeat. now left. }
  assert (HV : valid_input true [0%Z] [] tys).
  { split; [repeat constructor; auto|]. split; [cbn; lia|]. split; [cbn; lia|]. intros es' ws' [H|[H|[]]]; inversion H; subst; split; auto; discriminate. }
  destruct (construction_total 0 true [0%Z] [] tys [] HV) as (g & Eg & _). exists g. cbv zeta. fold tys.
  assert (HC : constructed 0 true [0%Z] [] tys g) by (split; auto).
  assert (HI : In k (incident 0%Z es)).
  { apply incident_in. exists (0%Z, [0%Z]). split; [|now left]. unfold es. apply nth_error_repeat. lia. }
  split; [exact HC|]. split; [unfold es; rewrite repeat_length; lia|]. split; [rewrite HP, concat_repeat_len; lia|]. split; [rewrite Hg; cbn [app length]; lia|]. split; [exact HI|].
  apply (C71_edge_handle w 0 [0%Z] [] tys g 0 es [] 0 0%Z k fuel HC eq_refl eq_refl HI).
  rewrite (c_ntypes _ _ _ _ _ _ HC). change (length tys) with 2. unfold getEdge. lia.
Qed.
Print Assumptions C71_edge_handle_refuted.

(** u(edge) decodes the handle in lid_t: two handles 2^w apart get the same answer. *)
Theorem C71_handle_truncated w g h : h <> 0 -> u_of_w w g (h + 2 ^ w) = u_of_w w g h.
Proof. intros H. destruct h as [|p]; [congruence|]. cbn [plus u_of_w]. now rewrite narrow_alias. Qed.
Print Assumptions C71_handle_truncated.

(** So with four edge types and 2^(w-2)+1 edges of type 0 the last of them, which starts at vertex 1, is reported to start at vertex 0:
    a wrong answer rather than a failure. *)
Theorem C71_wrong_source_refuted w : 4 <= w -> exists es g, let tys := [(es, []); ([], []); ([], []); ([], [])] in
  constructed 0 false [0%Z; 1%Z] [] tys g /\ local_sources [0%Z; 1%Z] es /\ length es < 2 ^ (w - 1) /\ length (concat (pins_of es)) < 2 ^ w /\
  let h := getEdge 4 (2 ^ (w - 2)) 0 in u_of g h = Some (getVertex 1) /\ u_of_w w g h = Some (getVertex 0).
Proof.
  intros Hw. set (k := 2 ^ (w - 2)). set (es := repeat (0%Z, [0%Z; 0%Z]) k ++ [(0%Z, [1%Z; 0%Z])] : list edge_input). exists es. set (tys := [(es, []); ([], []); ([], []); ([], [])] : list type_input).
  set (verts := [0%Z; 1%Z]).
  assert (K2 : 2 ^ (w - 1) = 2 * k) by (unfold k; replace (w - 1) with (S (w - 2)) by lia; reflexivity).
  assert (K3 : 2 ^ w = 4 * k) by (unfold k; replace w with (S (S (w - 2))) at 1 by lia; cbn [Nat.pow]; lia).
  assert (K4 : 4 <= k) by (unfold k; change 4 with (2 ^ 2); apply Nat.pow_le_mono_r; lia).
  assert (HE : forall e, In e es -> e = (0%Z, [0%Z; 0%Z]) \/ e = (0%Z, [1%Z; 0%Z])).
  { intros e He. unfold es in He. apply in_app_iff in He as [He|[He|[]]]; [left; exact (repeat_spec _ _ _ He)|right; auto]. }
  assert (HP : incl (concat (pins_of es)) verts).
  { intros x Hx. apply in_concat in Hx as (ps & Hp & Hx). apply in_map_iff in Hp as (e & <- & He). destruct (HE e He) as [-> | ->]; cbn in *; intuition. }
  assert (Hlp : forall n : nat, length (concat (pins_of (repeat (0%Z, [0%Z; 0%Z]) n ++ [(0%Z, [1%Z; 0%Z])]))) = 2 * n + 2).
  { induction n as [|n IH]; [reflexivity|]. cbn [repeat app]. unfold pins_of in *. cbn [map snd concat app length]. rewrite IH. lia. }
  assert (Hg : ghosts_of verts tys = []).
  { apply first_occ_nil. unfold all_pins, tys. cbn [flat_map fst]. rewrite !app_nil_r. exact HP. }
  assert (HV : valid_input false verts [] tys).
  { split; [repeat constructor; cbn; intuition congruence|]. split; [cbn; lia|]. split; [cbn; lia|]. intros es' ws' H. assert (ws' = [] /\ (es' = es \/ es' = [])) as (-> & HH).
    { destruct H as [H|[H|[H|[H|[]]]]]; split; try congruence; [left; congruence|right; congruence..]. }
    split; auto. intros _ e He. destruct HH as [-> | ->]; [|destruct He]. destruct (HE e He) as [-> | ->]; reflexivity. }
  assert (HL : local_sources verts es) by (intros e u x He E; destruct (HE e He) as [-> | ->]; inversion E; subst; cbn; auto).
  destruct (construction_total 0 false verts [] tys [] HV) as (g & Eg & _). exists g. cbv zeta. fold tys. assert (HC : constructed 0 false verts [] tys g) by (split; auto).
  split; [exact HC|]. split; [exact HL|]. split; [unfold es; rewrite app_length, repeat_length; cbn; lia|]. split; [unfold es; rewrite Hlp; lia|].
  destruct (constructed_rep _ _ _ _ _ _ HC) as (HR & Hh & _).
  assert (Hnt : ntypes g = 4) by (rewrite (c_ntypes _ _ _ _ _ _ HC); reflexivity).
  assert (VO : forall l v, nth_error verts l = Some v -> vals_of l (occ_of g verts (ghosts_of verts tys) es) = map (idx (verts ++ ghosts_of verts tys)) (out_dests v es)).
  { intros l v Hl. unfold occ_of. rewrite Hh. destruct (nth_verts verts tys l v Hl) as [Ha L]. apply vals_of_occs_trad; auto; [apply HR|]. intros x Hx. apply in_app_iff. left. now apply HP. }
  assert (O0 : forall n : nat, out_dests 0%Z (repeat (0%Z, [0%Z; 0%Z]) n ++ [(0%Z, [1%Z; 0%Z])]) = repeat 0%Z n) by (induction n as [|n IH]; [reflexivity|]; cbn [repeat app]; unfold out_dests in *; cbn [flat_map snd Z.eqb app]; now rewrite IH).
  assert (O1 : forall n : nat, out_dests 1%Z (repeat (0%Z, [0%Z; 0%Z]) n ++ [(0%Z, [1%Z; 0%Z])]) = [0%Z]) by (induction n as [|n IH]; [reflexivity|]; cbn [repeat app]; unfold out_dests in *; cbn [flat_map snd Z.eqb app]; now rewrite IH).
  assert (V0 : cnt_of 0 (occ_of g verts (ghosts_of verts tys) es) = k) by (unfold cnt_of; rewrite (VO 0 0%Z eq_refl), map_length; unfold es; rewrite O0; apply repeat_length).
  assert (V1 : cnt_of 1 (occ_of g verts (ghosts_of verts tys) es) = 1) by (unfold cnt_of; rewrite (VO 1 1%Z eq_refl), map_length; unfold es; now rewrite O1).
  pose proof (u_of_ok g verts _ _ _ HR 0 es _ 1 0 (nth_eff tys 0 es [] eq_refl)) as U1. rewrite V1 in U1. rewrite off_S, V0 in U1. rewrite Hnt in U1. unfold off in U1. cbn [seq map] in U1. change (nsum []) with 0 in U1. cbn [plus] in U1. rewrite Nat.add_0_r in U1.
  pose proof (u_of_ok g verts _ _ _ HR 0 es _ 0 0 (nth_eff tys 0 es [] eq_refl)) as U0. rewrite V0 in U0. rewrite Hnt in U0. unfold off in U0. cbn [seq map] in U0. change (nsum []) with 0 in U0. cbn [plus] in U0.
  split; [apply U1; cbn; lia|].
  assert (En : nlv g = 2) by (rewrite (rp_nlv _ _ _ _ _ HR); reflexivity).
  replace (getEdge 4 k 0) with (getEdge 4 0 0 + 2 ^ w) by (unfold getEdge; lia). rewrite C71_handle_truncated by (unfold getEdge; lia).
  rewrite u_of_w_gen; [apply U0; cbn; lia| | |]; rewrite ?En; unfold lim; unfold getEdge; rewrite K2; lia.
Qed.
Print Assumptions C71_wrong_source_refuted.

(** ** loop counters of type int *)
Theorem C71_setEdgeWeights wi me hg verts vws tys g t es ws x : constructed me hg verts vws tys g -> nth_error tys t = Some (es, ws) ->
  setEdgeWeights_const_w wi g x t = if length es <? 2 ^ (wi - 1) then setEdgeWeights_const g x t else None.
Proof.
  intros HC Ht. destruct (c_numedges _ _ _ _ _ _ HC t es ws Ht) as (E & _). unfold setEdgeWeights_const_w, num_edges. destruct (gtype g t) as [ed|]; [|discriminate]. cbn in E. inversion E as [E']. cbn [obind]. rewrite E'.
  unfold chk. fold (lim wi). change (2 ^ (wi - 1)) with (lim wi). destruct (length es <? lim wi); reflexivity.
Qed.
Theorem C71_changeOwners wi me hg verts vws tys g nr : constructed me hg verts vws tys g ->
  changeOwners_w wi g nr = if length (ghosts_of verts tys) <? 2 ^ (wi - 1) then changeOwners g nr else None.
Proof.
  intros HC. destruct (c_counts _ _ _ _ _ _ HC) as (_ & E). unfold changeOwners_w, chk. rewrite E. change (2 ^ (wi - 1)) with (lim wi). destruct (length (ghosts_of verts tys) <? lim wi); reflexivity.
Qed.
Print Assumptions C71_setEdgeWeights. Print Assumptions C71_changeOwners.

(** Second adjacencies: within the limits the tables and their iteration are those of the unbounded model... *)
Lemma mapM_seq_nth {A} (f : nat -> option A) n rows : mapM f (seq 0 n) = Some rows -> forall l, l < n -> exists r, nth_error rows l = Some r /\ f l = Some r.
Proof. intros H l Hl. destruct (mapM_nth _ _ _ _ _ l l H) as (y & A1 & A2); [now rewrite nth_error_seq by lia|]. eauto. Qed.
Lemma rows_as_map (f : nat -> option (list nat)) l rows : mapM f l = Some rows -> rows = map (fun x => match f x with Some r => r | None => [] end) l.
Proof.
  revert rows; induction l as [|x l IH]; intros rows H; cbn in H; [inversion H; reflexivity|]. destruct (f x) as [y|] eqn:E; [|discriminate]. cbn in H. destruct (mapM f l) as [r|]; [|discriminate]. inversion H; subst. cbn [map]. rewrite E. f_equal. now apply IH.
Qed.
Theorem C71_second_adjacencies w wi me hg verts vws tys g tb ord compress fuel rows : constructed me hg verts vws tys g -> within w verts tys ->
  ord_ok ord -> 0 < length tys -> 0 < length tb -> length verts < fuel ->
  mapM (fun l => adjacent g (getVertex l) 0 fuel) (seq 0 (length verts)) = Some rows ->
  length verts + 1 < 2 ^ (wi - 1) -> length (concat rows) < 2 ^ (wi - 1) -> length tys * (length (concat rows) + 1) + 1 < 2 ^ (w - 1) ->
  exists tb', create_vev_w w wi g tb ord 0 compress fuel = Some tb' /\ create_vev g tb ord 0 compress fuel = Some tb' /\
  forall l fuel', l < length verts -> vev_visit_w w wi g tb' (getVertex l) 0 fuel' = vev_visit g tb' (getVertex l) 0 fuel'.
Proof.
  intros HC HW HO Ht Htb Hf Hrows B1 B2 B3. change (2 ^ (wi - 1)) with (lim wi) in *. change (2 ^ (w - 1)) with (lim w) in *.
  pose proof (proj1 (constructed_rep _ _ _ _ _ _ HC)) as HR. assert (Hn : nlv g = length verts) by apply (rp_nlv _ _ _ _ _ HR).
  set (R := fun h => match adjacent g h 0 fuel with Some l => l | None => [] end). set (hs := map S (seq 0 (length verts))).
  assert (Hlen : length hs = nlv g) by (unfold hs; rewrite map_length, seq_length; auto).
  assert (HRow : forall h, In h hs -> vev_row g fuel h = Some (R h)).
  { intros h Hh. apply in_map_iff in Hh as (l & <- & Hl). apply in_seq in Hl. destruct (mapM_seq_nth _ _ _ Hrows l) as (r & _ & E); [lia|]. unfold vev_row, R. unfold getVertex in E. rewrite Nat.add_1_r in E. now rewrite E. }
  assert (Hcr : nsum (map (fun h => length (R h)) hs) = length (concat rows)).
  { rewrite (rows_as_map _ _ _ Hrows), length_concat. unfold hs. rewrite !map_map. f_equal. apply map_ext. intros l. unfold R, getVertex. now rewrite Nat.add_1_r. }
  assert (HRowW : forall h, vev_row_w w g fuel h = vev_row g fuel h) by (intros; unfold vev_row_w, vev_row; eapply adjacent_w_ok; eauto).
  assert (HNZ : forall h x, In x (R h) -> x <> 0).
  { intros h x Hx. unfold R in Hx. destruct (adjacent g h 0 fuel) as [l|] eqn:E; [|destruct Hx]. unfold adjacent in E. destruct (adj_begin g h 0) as [it|]; [|discriminate].
    cbn [obind] in E. apply drain_nz in E as (E & _). auto. }
  destruct (sa_make_ok (nlv g) (vev_row g fuel) vlid ord compress hs R pred) as (s & Es & Hoff & Hlist); auto.
  { intros h x _ Hx. apply HNZ in Hx. destruct x; [congruence|reflexivity]. }
  exists (upd tb 0 (Some s)). assert (Nnt : length tys * 1 <= length tys * (length (concat rows) + 1)) by (apply Nat.mul_le_mono_l; lia).
  assert (length (concat rows) + 1 <= length tys * (length (concat rows) + 1)) by (destruct (length tys); [lia|]; cbn; lia).
  assert (EM : sa_make_w w wi (nlv g) (vev_row_w w g fuel) vlid ord compress hs = Some s).
  { rewrite <- Es. rewrite <- (sa_make_w_ok w wi (nlv g) (vev_row g fuel) vlid ord compress hs R) by (auto; rewrite ?Hcr, ?Hn; lia).
    unfold sa_make_w. assert (EO : sa_offsets_w w wi (nlv g) (vev_row_w w g fuel) compress hs = sa_offsets_w w wi (nlv g) (vev_row g fuel) compress hs).
    { unfold sa_offsets_w. destruct (aset (anew (nlv g + 1)) 0 0); [|reflexivity]. cbn [obind]. erewrite (foldM_ext_inv (fun _ _ => True) _ _ hs []); [reflexivity| |exact I]. intros p x q [off id] _ _. rewrite HRowW. auto. }
    rewrite EO. destruct (sa_offsets_w w wi (nlv g) (vev_row g fuel) compress hs) as [off|]; [|reflexivity]. cbn [obind]. destruct (aget off (nlv g)) as [tot|]; [|reflexivity]. cbn [obind].
    assert (EL : sa_lists_w wi tot (vev_row_w w g fuel) vlid ord compress hs = sa_lists_w wi tot (vev_row g fuel) vlid ord compress hs).
    { unfold sa_lists_w. erewrite (foldM_ext_inv (fun _ _ => True) _ _ hs []); [reflexivity| |exact I]. intros p x q st _ _. rewrite HRowW. auto. }
    now rewrite EL. }
  assert (EV : all_verts g fuel = Some hs) by (apply (all_verts_ok _ _ _ _ _ HR); auto).
  split; [|split].
  - unfold create_vev_w. rewrite (all_verts_w_ok w me hg verts vws tys g HC HW), EV. cbn [obind]. rewrite EM. cbn [obind]. destruct (Nat.ltb_spec 0 (length tb)); [reflexivity|lia].
  - unfold create_vev. rewrite EV. cbn [obind]. rewrite Es. cbn [obind]. destruct (Nat.ltb_spec 0 (length tb)); [reflexivity|lia].
  - intros l fuel' Hl. unfold vev_visit_w, vev_visit, vev_begin_w, vev_end_w, vev_begin, vev_end, getVertex. rewrite Nat.add_1_r. cbn [vlid obind]. rewrite sa_get_upd by auto. cbn [obind].
    set (out := fun h => map pred (row_out ord compress h (R h))) in *.
    assert (PT : forall i, nsum (map (fun h => length (out h)) (firstn i hs)) <= length (concat rows)).
    { intros i. rewrite <- Hcr. transitivity (nsum (map (fun h => length (out h)) hs)).
      - rewrite <- (firstn_skipn i hs) at 2. rewrite map_app, nsum_app. lia.
      - clear - HO. induction hs as [|a r IH]; [cbn; lia|]. cbn [map]. assert (length (out a) <= length (R a)); [|unfold nsum in *; cbn [fold_right]; lia].
        unfold out. rewrite map_length. unfold row_out. destruct compress; [|lia]. rewrite (Permutation_length (HO _ _)). apply uniq_len. }
    assert (Ll : l < nlv g) by lia. rewrite (Hoff l) by lia. cbn [obind]. replace (l + 1) with (S l) by lia. rewrite ?(Hoff (S l)) by lia. cbn [obind].
    set (b := nsum (map (fun h => length (out h)) (firstn l hs))). set (e := nsum (map (fun h => length (out h)) (firstn (S l) hs))).
    assert (b <= length (concat rows)) by apply PT. assert (He : e <= length (concat rows)) by apply PT.
    assert (Hbe : b <= e).
    { unfold b, e. assert (Hnl : nth_error hs l = Some (S l)) by (unfold hs; rewrite nth_error_map, nth_error_seq by lia; reflexivity). rewrite (nsum_firstn_S (fun h => length (out h)) hs l (S l) Hnl). lia. }
    rewrite (c_ntypes _ _ _ _ _ _ HC) in *. set (nt := length tys) in *.
    assert (e * nt + nt + 1 < lim w) by nia. assert (b * nt + 1 < lim w) by nia.
    change (fun h : nat => length (map Init.Nat.pred (row_out ord compress h (R h)))) with (fun h => length (out h)). fold b. fold e.
    rewrite chk_ok by lia. cbn [obind]. rewrite chk_ok by lia. cbn [obind]. unfold vev_iterate_w, vev_iterate. rewrite (c_ntypes _ _ _ _ _ _ HC).
    apply (sa_loop_w_ok w wi (length tys) _ _ (upd tb 0 (Some s)) s (nlv g) (nsum (map (fun h => length (out h)) (firstn (nlv g) hs)))); auto.
    + now apply sa_get_upd.
    + pose proof (PT (nlv g)). pose proof (lim_le wi). lia.
    + intros i x Hx. rewrite Hlist, aget_ainit in Hx. apply nth_error_In, in_concat in Hx as (r & Hr & Hx). apply in_map_iff in Hr as (h & <- & Hh). apply in_map_iff in Hx as (y & <- & Hy).
      apply (out_in ord compress hs R HO) in Hy; auto. pose proof (HNZ _ _ Hy) as NZ. assert (y < lim w); [|destruct y; [congruence|cbn [pred]; lia]].
      unfold R in Hy. rewrite <- (adjacent_w_ok w me hg verts vws tys g HC HW) in Hy. destruct (adjacent_w w g h 0 fuel) as [l0|] eqn:E0; [|destruct Hy].
      apply adjacent_w_small in E0. rewrite Forall_forall in E0. auto.
Qed.
Print Assumptions C71_second_adjacencies.

(** the same for create_eve_adjacency *)
Lemma occs_len_trad n all pss : forall i, length (occs false n all i pss) <= length pss.
Proof.
  induction pss as [|ps pss IH]; intros i; [cbn; lia|]. cbn [occs]. rewrite !app_length. specialize (IH (S i)).
  assert (length (locc false n all i ps) <= 1); [|cbn [length]; lia]. unfold locc.
  destruct ps as [|a [|b r]]; [cbn; lia|cbn; lia|]. destruct (idx all a <? n); cbn [length]; lia.
Qed.
Lemma mapM_ext_all {X Y} (f g : X -> option Y) : (forall x, f x = g x) -> forall l, mapM f l = mapM g l.
Proof. intros H. induction l as [|a l IH]; [reflexivity|]. cbn. now rewrite H, IH. Qed.
Lemma sa_make_w_ext w wi n row row' lid ord compress hs : (forall h, In h hs -> row h = row' h) -> sa_make_w w wi n row lid ord compress hs = sa_make_w w wi n row' lid ord compress hs.
Proof.
  intros H. unfold sa_make_w. assert (EO : sa_offsets_w w wi n row compress hs = sa_offsets_w w wi n row' compress hs).
  { unfold sa_offsets_w. destruct (aset (anew (n + 1)) 0 0); [|reflexivity]. cbn [obind]. erewrite (foldM_ext_inv (fun _ _ => True) _ _ hs []); [reflexivity| |exact I].
    intros p x q [off id] E _. rewrite (H x); [auto|]. cbn in E. rewrite E. apply in_app_iff. right. now left. }
  rewrite EO. destruct (sa_offsets_w w wi n row' compress hs) as [off|]; [|reflexivity]. cbn [obind]. destruct (aget off n) as [tot|]; [|reflexivity]. cbn [obind].
  assert (EL : sa_lists_w wi tot row lid ord compress hs = sa_lists_w wi tot row' lid ord compress hs).
  { unfold sa_lists_w. erewrite (foldM_ext_inv (fun _ _ => True) _ _ hs []); [reflexivity| |exact I]. intros p x q st E _. rewrite (H x); [auto|]. cbn in E. rewrite E. apply in_app_iff. right. now left. }
  now rewrite EL.
Qed.
Lemma vertex_edges_small w me hg verts vws tys g h fuel l : constructed me hg verts vws tys g -> within w verts tys -> vertex_edges g h 0 fuel = Some l -> Forall (fun x => x < lim w) l.
Proof.
  intros HC HW. rewrite <- (vertex_edges_w_ok w me hg verts vws tys g HC HW). pose proof (proj1 (constructed_rep _ _ _ _ _ _ HC)) as HR. pose proof (c_ntypes _ _ _ _ _ _ HC) as Hnt.
  unfold vertex_edges_w, eit_vertex. destruct (vlid h) as [l0|] eqn:Hv; [|discriminate]. cbn [obind]. destruct (gtype g 0) as [ed|] eqn:E; [|discriminate]. cbn [obind].
  destruct (aget (e_deg ed) l0) as [o|] eqn:Eo; [|discriminate]. cbn [obind]. unfold vdegree. rewrite Hv, E. cbn [obind]. destruct (aget (e_deg ed) (l0 + 1)) as [a|] eqn:Ea; [|discriminate]. cbn [obind]. rewrite Eo. cbn [obind].
  apply (drain_all (fun s => ei_hyper s = false /\ (hyper g = false -> ei_end s <= lim w))).
  - intros s x s' (Hs & He) F. pose proof (lim_pos w). unfold eit_step_w in F. rewrite Hs in F. destruct (Nat.leb_spec (ei_end s) (ei_loc s)); [inversion F; subst; split; [lia|auto]|].
    destruct (hyper g) eqn:Hh; cbn [andb negb] in F.
    + destruct (edec (ntypes g) (ei_loc s)) as [[t id]|]; [|discriminate]. cbn [obind] in F. destruct (gtype g t) as [ed'|]; [|discriminate]. cbn [obind] in F. destruct (aget (e_list ed') id) as [e|]; [|discriminate]. cbn [obind] in F.
      destruct (getEdge_w w (ntypes g) e t) as [y|] eqn:G; [|discriminate]. cbn [obind] in F. inversion F; subst. apply getEdge_w_inv in G as (_ & G). cbn. split; auto.
    + inversion F; subst. cbn. split; auto. intros _. specialize (He eq_refl). lia.
  - cbn. split; [reflexivity|]. intros Hh. destruct (gtype_inv me hg verts vws tys g HC 0 ed E) as (es & ws & Hty & HE). destruct (W3 w verts tys HW 0 es ws Hty) as (A & _).
    pose proof (proj1 (proj2 (constructed_rep _ _ _ _ _ _ HC))) as Hh'. rewrite Hh in Hh'. subst hg.
    assert (HB : forall k c, aget (e_deg ed) k = Some c -> exists k', k' = k /\ c = off (occs false (length verts) (verts ++ ghosts_of verts tys) 0 (epins_of es)) k /\ c <= length es).
    { intros k c Hc. exists k. split; [reflexivity|]. assert (Hi : k <= length verts) by (apply aget_lt in Hc; rewrite (er_dlen _ _ _ _ _ _ HE) in Hc; lia).
      rewrite (er_deg _ _ _ _ _ _ HE k Hi) in Hc. inversion Hc; subst. split; [reflexivity|]. unfold off. etransitivity; [apply nsum_cnt|]. etransitivity; [apply occs_len_trad|]. unfold epins_of. rewrite map_length. apply le_n. }
    destruct (HB _ _ Eo) as (_ & _ & Eo' & _). destruct (HB _ _ Ea) as (_ & _ & Ea' & La). pose proof (off_mono_le (occs false (length verts) (verts ++ ghosts_of verts tys) 0 (epins_of es)) l0 (l0 + 1)). rewrite Hnt.
    assert (o + (a - o) <= length es) by lia. assert (length tys * (o + (a - o)) <= length tys * length es) by (apply Nat.mul_le_mono_l; auto). lia.
Qed.
Theorem C71_second_adjacencies_of_edges w wi me hg verts vws tys g tb ord compress fuel rows es ws : constructed me hg verts vws tys g -> within w verts tys ->
  ord_ok ord -> nth_error tys 0 = Some (es, ws) -> 0 < length tb -> length es < fuel ->
  mapM (fun i => eve_row g fuel (getEdge (ntypes g) i 0)) (seq 0 (length es)) = Some rows ->
  length es + 1 < 2 ^ (wi - 1) -> length (concat rows) < 2 ^ (wi - 1) -> length tys * (length (concat rows) + 1) + 1 < 2 ^ (w - 1) ->
  exists tb', create_eve_w w wi g tb ord 0 compress fuel = Some tb' /\ create_eve g tb ord 0 compress fuel = Some tb' /\
  forall i fuel', i < length es -> eve_visit_w w wi g tb' (getEdge (ntypes g) i 0) fuel' = eve_visit g tb' (getEdge (ntypes g) i 0) fuel'.
Proof.
  intros HC HW HO Hty Htb Hf Hrows B1 B2 B3. change (2 ^ (wi - 1)) with (lim wi) in *. change (2 ^ (w - 1)) with (lim w) in *.
  assert (Ht : 0 < length tys) by (apply nth_error_Some; congruence).
  pose proof (proj1 (constructed_rep _ _ _ _ _ _ HC)) as HR. pose proof (c_ntypes _ _ _ _ _ _ HC) as Hnt.
  destruct (c_numedges _ _ _ _ _ _ HC 0 es ws Hty) as (Hne & _). destruct (gtype g 0) as [ed|] eqn:Eg; [|discriminate]. cbn in Hne. inversion Hne as [Hne']. clear Hne.
  set (R := fun h => match eve_row g fuel h with Some l => l | None => [] end). set (hs := map (fun i => getEdge (ntypes g) i 0) (seq 0 (length es))).
  assert (Hlen : length hs = length es) by (unfold hs; now rewrite map_length, seq_length).
  assert (HRow : forall h, In h hs -> eve_row g fuel h = Some (R h)).
  { intros h Hh. apply in_map_iff in Hh as (l & <- & Hl). apply in_seq in Hl. destruct (mapM_seq_nth _ _ _ Hrows l) as (r & _ & E); [lia|]. unfold R. now rewrite E. }
  assert (Hcr : nsum (map (fun h => length (R h)) hs) = length (concat rows)).
  { rewrite (rows_as_map _ _ _ Hrows), length_concat. unfold hs. rewrite !map_map. reflexivity. }
  assert (HRowW : forall h, In h hs -> eve_row_w w g fuel h = eve_row g fuel h).
  { intros h Hh. apply in_map_iff in Hh as (l & <- & Hl). apply in_seq in Hl. pose proof (edge_number_fits w me hg verts vws tys g HC HW 0 es ws l Hty ltac:(lia)) as HF.
    unfold eve_row_w, eve_row. rewrite (edge_pins_w_ok w me hg verts vws tys g HC HW) by (intros _; unfold getEdge; exact (Nat.lt_le_incl _ _ HF)). destruct (edge_pins g _ fuel) as [vs|]; [|reflexivity]. cbn [obind].
    erewrite (mapM_ext_all _ (fun v => o <- owner g v ;; if Z.eqb o (self g) then vertex_edges g v 0 fuel else Some [])); [reflexivity|].
    intros v. rewrite (owner_w_ok w me hg verts vws tys g HC HW). destruct (owner g v) as [o|]; [|reflexivity]. cbn [obind]. now rewrite (vertex_edges_w_ok w me hg verts vws tys g HC HW). }
  assert (HS : forall h x, In h hs -> In x (R h) -> x < lim w /\ exists id, x = getEdge (ntypes g) id 0).
  { intros h x Hh Hx. specialize (HRow h Hh). unfold eve_row in HRow. destruct (edge_pins g h fuel) as [vs|]; [|discriminate]. cbn [obind] in HRow.
    destruct (mapM _ vs) as [rs|] eqn:M; [|discriminate]. cbn [obind] in HRow. assert (concat rs = R h) as E by congruence. rewrite <- E in Hx. apply in_concat in Hx as (r & Hr & Hx).
    apply In_nth_error in Hr as (i & Hi). destruct (mapM_nth_inv _ _ _ M _ _ Hi) as (v & _ & Ev). destruct (owner g v) as [o|]; [|discriminate]. cbn [obind] in Ev.
    destruct (Z.eqb o (self g)); [|inversion Ev; subst; destruct Hx].
    pose proof (vertex_edges_small w me hg verts vws tys g v fuel r HC HW Ev) as S1. pose proof (vertex_edges_shape g v fuel r Ev ltac:(lia)) as S2. rewrite Forall_forall in S1, S2. auto. }
  destruct (sa_make_ok (length es) (eve_row g fuel) (elid g) ord compress hs R (fun x => match elid g x with Some i => i | None => 0 end)) as (s & Es & Hoff & Hlist); auto.
  { intros h x Hh Hx. destruct (HS h x Hh Hx) as (_ & id & ->). unfold elid. rewrite edec_getEdge by lia. reflexivity. }
  exists (upd tb 0 (Some s)). assert (Nnt : length tys * 1 <= length tys * (length (concat rows) + 1)) by (apply Nat.mul_le_mono_l; lia).
  assert (length (concat rows) + 1 <= length tys * (length (concat rows) + 1)) by (destruct (length tys); [lia|]; cbn; lia).
  assert (EM : sa_make_w w wi (length es) (eve_row_w w g fuel) (elid g) ord compress hs = Some s).
  { rewrite <- Es. apply (sa_make_w_ext w wi (length es) (eve_row_w w g fuel) (eve_row g fuel) (elid g) ord compress hs) in HRowW. rewrite HRowW.
    apply (sa_make_w_ok w wi (length es) (eve_row g fuel) (elid g) ord compress hs R); auto; rewrite ?Hcr; lia. }
  assert (EV : all_edges g 0 fuel = Some hs).
  { rewrite (all_edges_ok _ _ _ _ _ HR 0 es _ fuel (nth_eff _ _ _ _ Hty) Hf). unfold hs. reflexivity. }
  split; [|split].
  - unfold create_eve_w. rewrite Eg. cbn [obind]. rewrite (all_edges_w_ok w me hg verts vws tys g HC HW), EV. cbn [obind]. rewrite Hne', EM. cbn [obind]. destruct (Nat.ltb_spec 0 (length tb)); [reflexivity|lia].
  - unfold create_eve. rewrite Eg. cbn [obind]. rewrite EV. cbn [obind]. rewrite Hne', Es. cbn [obind]. destruct (Nat.ltb_spec 0 (length tb)); [reflexivity|lia].
  - intros l fuel' Hl. assert (Nt : 0 < ntypes g) by lia. unfold eve_visit_w, eve_visit, eve_begin_w, eve_end_w, eve_begin, eve_end. rewrite edec_getEdge by auto. cbn [obind]. rewrite sa_get_upd by auto. cbn [obind].
    set (L := fun x => match elid g x with Some i => i | None => 0 end) in *. set (out := fun h => map L (row_out ord compress h (R h))) in *.
    assert (PT : forall i, nsum (map (fun h => length (out h)) (firstn i hs)) <= length (concat rows)).
    { intros i. rewrite <- Hcr. transitivity (nsum (map (fun h => length (out h)) hs)).
      - rewrite <- (firstn_skipn i hs) at 2. rewrite map_app, nsum_app. lia.
      - clear - HO. induction hs as [|a r IH]; [cbn; lia|]. cbn [map]. assert (length (out a) <= length (R a)); [|unfold nsum in *; cbn [fold_right]; lia].
        unfold out. rewrite map_length. unfold row_out. destruct compress; [|lia]. rewrite (Permutation_length (HO _ _)). apply uniq_len. }
    rewrite (Hoff l) by lia. cbn [obind]. replace (l + 1) with (S l) by lia. rewrite ?(Hoff (S l)) by lia. cbn [obind].
    change (fun h : nat => length (map L (row_out ord compress h (R h)))) with (fun h => length (out h)).
    set (b := nsum (map (fun h => length (out h)) (firstn l hs))). set (e := nsum (map (fun h => length (out h)) (firstn (S l) hs))).
    assert (b <= length (concat rows)) by apply PT. assert (He : e <= length (concat rows)) by apply PT.
    assert (Hbe : b <= e).
    { unfold b, e. assert (Hnl : nth_error hs l = Some (getEdge (ntypes g) l 0)) by (unfold hs; rewrite nth_error_map, nth_error_seq by lia; reflexivity). rewrite (nsum_firstn_S (fun h => length (out h)) hs l _ Hnl). lia. }
    rewrite Hnt in *. set (nt := length tys) in *.
    assert (e * nt + nt + 1 < lim w) by nia. assert (b * nt + 1 < lim w) by nia.
    rewrite chk_ok by lia. cbn [obind]. rewrite chk_ok by lia. cbn [obind]. unfold eve_iterate_w, eve_iterate. rewrite Hnt. fold nt.
    apply (sa_loop_w_ok w wi nt _ _ (upd tb 0 (Some s)) s (length es) (nsum (map (fun h => length (out h)) (firstn (length es) hs)))); auto.
    + now apply sa_get_upd.
    + rewrite Eg. cbn [obind]. now rewrite Hne'.
    + pose proof (PT (length es)). pose proof (lim_le wi). lia.
    + intros i x Hx. rewrite Hlist, aget_ainit in Hx. apply nth_error_In, in_concat in Hx as (r & Hr & Hx). apply in_map_iff in Hr as (h & <- & Hh). apply in_map_iff in Hx as (y & <- & Hy).
      apply (out_in ord compress hs R HO) in Hy; auto. destruct (HS h y Hh Hy) as (Ly & id & Ey). unfold L, elid. rewrite Hnt, Ey. fold nt. rewrite edec_getEdge by auto. cbn [obind]. unfold getEdge in Ey. fold nt in Ey. lia.
Qed.
Print Assumptions C71_second_adjacencies_of_edges.


(** ... but the counters of create_vev_adjacency are ints: with 2^(wi-1) or more second adjacencies the call is undefined, however wide lid_t is. *)
Lemma put_w_count wi (lid : nat -> option nat) (xs : list nat) : forall (ls : arr nat) (id : nat) (st : arr nat * nat), id < lim wi ->
  foldM (fun '(ls, id) x => l <- lid x ;; ls' <- aset ls id l ;; id' <- chk wi (id + 1) ;; Some (ls', id')) xs (ls, id) = Some st -> snd st = id + length xs /\ snd st < lim wi.
Proof.
  induction xs as [|x xs IH]; intros ls id st H E; [inversion E; subst; cbn; lia|]. cbn [foldM] in E. destruct (lid x) as [l|]; [|discriminate]. cbn [obind] in E. destruct (aset ls id l) as [ls'|]; [|discriminate]. cbn [obind] in E.
  destruct (chk wi (id + 1)) as [id'|] eqn:C; [|discriminate]. cbn [obind] in E. apply chk_inv in C as (-> & C). apply IH in E; [|auto]. cbn [length]. lia.
Qed.
Theorem C71_second_adjacency_overflow w wi me hg verts vws tys g tb ord t fuel rows : constructed me hg verts vws tys g -> within w verts tys ->
  length verts < fuel -> mapM (fun l => adjacent g (getVertex l) 0 fuel) (seq 0 (length verts)) = Some rows ->
  2 ^ (wi - 1) <= length (concat rows) -> create_vev_w w wi g tb ord t false fuel = None.
Proof.
  intros HC HW Hf Hrows B. change (2 ^ (wi - 1)) with (lim wi) in B. pose proof (proj1 (constructed_rep _ _ _ _ _ _ HC)) as HR.
  destruct (create_vev_w w wi g tb ord t false fuel) as [tb'|] eqn:E; [|reflexivity]. exfalso. unfold create_vev_w in E. rewrite (all_verts_w_ok w me hg verts vws tys g HC HW), (all_verts_ok _ _ _ _ _ HR) in E by auto. cbn [obind] in E.
  destruct (sa_make_w w wi (nlv g) (vev_row_w w g fuel) vlid ord false (map S (seq 0 (length verts)))) as [s|] eqn:Es; [|discriminate]. clear E. unfold sa_make_w in Es.
  destruct (sa_offsets_w w wi (nlv g) (vev_row_w w g fuel) false _) as [off|]; [|discriminate]. cbn [obind] in Es. destruct (aget off (nlv g)) as [tot|]; [|discriminate]. cbn [obind] in Es.
  destruct (sa_lists_w wi tot (vev_row_w w g fuel) vlid ord false (map S (seq 0 (length verts)))) as [ls|] eqn:El; [|discriminate]. clear Es. unfold sa_lists_w in El.
  destruct (foldM _ (map S (seq 0 (length verts))) (anew tot, 0)) as [[ls' id']|] eqn:EF; [|discriminate]. clear El.
  set (R := fun h => match adjacent g h 0 fuel with Some l => l | None => [] end).
  assert (G : forall us st0 st, (forall u, In u us -> vev_row_w w g fuel u = Some (R u)) -> snd st0 < lim wi -> foldM (fun st h => others <- vev_row_w w g fuel h ;;
      foldM (fun '(ls, id) x => l <- vlid x ;; ls' <- aset ls id l ;; id' <- chk wi (id + 1) ;; Some (ls', id')) others st) us st0 = Some st ->
      snd st = snd st0 + nsum (map (fun h => length (R h)) us) /\ snd st < lim wi).
  { clear. induction us as [|u us IH]; intros [ls0 id0] st Hu H E; [inversion E; subst; cbn in *; lia|]. cbn [foldM] in E. rewrite Hu in E by now left. cbn [obind] in E.
    destruct (foldM _ (R u) (ls0, id0)) as [st1|] eqn:E1; [|discriminate]. cbn [obind] in E. apply put_w_count in E1 as (A1 & A2); [|auto]. apply IH in E as (B1 & B2); [|intros; apply Hu; now right|auto].
    split; [|exact B2]. rewrite B1, A1. cbn [map snd]. unfold nsum. cbn [fold_right]. lia. }
  assert (HU : forall u, In u (map S (seq 0 (length verts))) -> vev_row_w w g fuel u = Some (R u)).
  { intros u Hu. apply in_map_iff in Hu as (l & <- & Hl). apply in_seq in Hl. destruct (mapM_seq_nth _ _ _ Hrows l) as (r & _ & E); [lia|]. unfold vev_row_w, R.
    rewrite (adjacent_w_ok w me hg verts vws tys g HC HW). unfold getVertex in E. rewrite Nat.add_1_r in E. now rewrite E. }
  destruct (G _ (_, 0) _ HU (lim_pos wi) EF) as (A1 & A2). cbn [snd] in *.
  assert (nsum (map (fun h => length (R h)) (map S (seq 0 (length verts)))) = length (concat rows)); [|lia].
  rewrite (rows_as_map _ _ _ Hrows), length_concat. rewrite !map_map. f_equal. apply map_ext. intros l. unfold R, getVertex. now rewrite Nat.add_1_r.
Qed.
Print Assumptions C71_second_adjacency_overflow.

(** One hyperedge is enough: with s pins there are s*s second adjacencies, so that 46341 pins overflow a 32-bit int. *)
Theorem C71_second_adjacency_refuted w wi s tb ord : 2 <= s -> 2 ^ (wi - 1) <= s * s -> s + 1 < 2 ^ (wi - 1) -> 2 * s < 2 ^ (w - 1) -> 0 < length tb -> ord_ok ord ->
  exists verts es g, constructed 0 true verts [] [(es, [])] g /\ length verts = s /\ length es = 1 /\ within w verts [(es, [])] /\
    (exists tb', create_vev g tb ord 0 false (S s) = Some tb') /\ create_vev_w w wi g tb ord 0 false (S s) = None.
Proof.
  intros Hs B1 B2 B3 Htb HO. set (verts := map Z.of_nat (seq 0 s)). set (es := [(0%Z, verts)] : list edge_input). set (tys := [(es, [])] : list type_input). exists verts, es.
  assert (Hlen : length verts = s) by (unfold verts; now rewrite map_length, seq_length).
  assert (HP : concat (pins_of es) = verts) by (unfold es, pins_of; cbn; apply app_nil_r).
  assert (Hg : ghosts_of verts tys = []). { apply first_occ_nil. unfold all_pins, tys. cbn [flat_map fst]. rewrite HP, app_nil_r. apply incl_refl. }
  assert (HV : valid_input true verts [] tys).
  { split; [apply nodup_zseq|]. split; [cbn; lia|]. split; [cbn; lia|]. intros es' ws' [H|[]]. assert (ws' = []) by congruence. split; auto; discriminate. }
  destruct (construction_total 0 true verts [] tys [] HV) as (g & Eg & _). exists g. assert (HC : constructed 0 true verts [] tys g) by (split; auto).
  assert (HW : within w verts tys).
  { split; [lia|]. split; [rewrite Hg, app_nil_r; lia|]. intros es' ws' [H|[]]. assert (es' = es) as -> by congruence. change (length tys * length es) with 1. rewrite HP. lia. }
  assert (HI : forall v, In v verts -> incident v es = [0]).
  { intros v Hv. unfold incident, es. cbn [length seq combine flat_map fst snd]. rewrite app_nil_r. rewrite (proj1 (NoDup_count_occ' Z.eq_dec verts) (nodup_zseq s) v Hv). reflexivity. }
  assert (HA : forall l, l < s -> exists hs, adjacent g (getVertex l) 0 (S s) = Some hs /\ length hs = s).
  { intros l Hl. assert (Hn : nth_error verts l = Some (Z.of_nat l)) by (unfold verts; rewrite nth_error_map, nth_error_seq by lia; reflexivity).
    assert (NB : flat_map (fun i => match nth_error es i with Some e => snd e | None => [] end) (incident (Z.of_nat l) es) = verts) by (rewrite (HI _ (nth_error_In _ _ Hn)); unfold es; cbn [flat_map nth_error snd]; apply app_nil_r).
    destruct (w_adj_hyper _ _ _ _ _ _ HC 0 es [] l (Z.of_nat l) (S s) eq_refl eq_refl Hn) as (hs & E & M); [rewrite NB; lia|]. exists hs. split; [exact E|]. rewrite NB in M. apply mapM_length in M. lia. }
  set (R := fun l => match adjacent g (getVertex l) 0 (S s) with Some r => r | None => [] end).
  assert (HM : mapM (fun l => adjacent g (getVertex l) 0 (S s)) (seq 0 (length verts)) = Some (map R (seq 0 (length verts)))).
  { apply mapM_some. intros l Hl. apply in_seq in Hl. destruct (HA l) as (r & E & _); [lia|]. unfold R. now rewrite E. }
  assert (HT : length (concat (map R (seq 0 (length verts)))) = s * s).
  { rewrite length_concat, map_map, Hlen. transitivity (nsum (map (fun _ => s) (seq 0 s))).
    - f_equal. apply map_ext_in. intros l Hl. apply in_seq in Hl. destruct (HA l) as (r & E & L); [lia|]. unfold R. now rewrite E.
    - assert (G : forall k a, nsum (map (fun _ => s) (seq a k)) = k * s); [|apply G]. clear. induction k as [|k IH]; intros a; [reflexivity|]. cbn [seq map]. specialize (IH (S a)). unfold nsum in *. cbn [fold_right]. lia. }
  split; [exact HC|]. split; [exact Hlen|]. split; [reflexivity|]. split; [exact HW|]. split.
  - destruct (C23_vev_partial 0 true verts [] tys g tb ord false (S s) HC) as (tb' & E & _); auto; try (cbn; lia); try lia; [|now exists tb']. intros l Hl. rewrite Hlen in Hl. destruct (HA l) as (r & E & _); [lia|]. eauto.
  - apply (C71_second_adjacency_overflow w wi 0 true verts [] tys g tb ord 0 (S s) (map R (seq 0 (length verts))) HC HW); [lia|exact HM|lia].
Qed.
Print Assumptions C71_second_adjacency_refuted.

(** ** concrete cases *)
Example C71_ex_within : within 8 ex_verts ex_tys /\ exists g, constructed 1 true ex_verts ex_vws ex_tys g.
Proof.
  split.
  - split; [vm_compute; lia|]. split; [vm_compute; lia|]. intros es ws H. cbn in H. repeat (destruct H as [H|H]; [inversion H; subst; split; vm_compute; lia|]). destruct H.
  - eexists. split; [|left; vm_compute; reflexivity]. split; [repeat constructor; cbn; intuition congruence|]. split; [vm_compute; lia|]. split; [cbn; lia|].
    intros es ws H. cbn in H. repeat (destruct H as [H|H]; [inversion H; subst; split; [cbn; auto|discriminate]|]). destruct H.
Qed.
Example C71_ex_widths : (g <- build_graph 1 true ex_verts ex_vws ex_tys ;; mapM (fun w => Some (vertex_edges_w w g 1 0 9, adjacent_w w g 1 0 20)) [8; 3]) =
  (g <- build_graph 1 true ex_verts ex_vws ex_tys ;; Some [(vertex_edges g 1 0 9, adjacent g 1 0 20); (vertex_edges g 1 0 9, None)]).
Proof. vm_compute. reflexivity. Qed.
(** four bits: five vertices and one edge starting at the last of them *)
Example C71_ex_midpoint : (g <- build_graph 0 false [0; 1; 2; 3; 4]%Z [] [([(0, [4; 0])]%Z, [])] ;; Some (u_of_w 4 g 1, u_of_w 5 g 1, edge_pins_w 4 g 1 5, edge_pins_w 5 g 1 5)) = Some (None, Some 5, None, Some [5; 1]).
Proof. vm_compute. reflexivity. Qed.
(** a three-pin hyperedge has nine second adjacencies, too many for a four-bit int whatever the width of lid_t *)
Example C71_ex_second : (g <- build_graph 0 true [0; 1; 2]%Z [] [([(0, [0; 1; 2])]%Z, [])] ;;
  Some (create_vev_w 9 4 g [None] (fun _ l => l) 0 false 9, option_map (@length _) (create_vev_w 9 5 g [None] (fun _ l => l) 0 false 9), option_map (@length _) (create_vev_w 9 4 g [None] (fun _ l => l) 0 true 9))) = Some (None, Some 1, Some 1).
Proof. vm_compute. reflexivity. Qed.
(** the same edge and its second adjacent edges: three pins, each sees the edge itself, so three entries *)
Example C71_ex_second_edges : (g <- build_graph 0 true [0; 1; 2]%Z [] [([(0, [0; 1; 2])]%Z, [])] ;;
  rows <- mapM (fun i => eve_row g 9 (getEdge (ntypes g) i 0)) (seq 0 1) ;;
  tb <- create_eve_w 9 4 g [None] (fun _ l => l) 0 false 9 ;;
  Some (rows, eve_visit_w 9 4 g tb 1 9, eve_visit g tb 1 9, option_map (@length _) (create_eve_w 9 2 g [None] (fun _ l => l) 0 false 9))) = Some ([[1; 1; 1]], Some [1; 1; 1], Some [1; 1; 1], None).
Proof. vm_compute. reflexivity. Qed.
