(** Common vocabulary: the option monad used for undefined behaviour, C arrays as lists of
    possibly-uninitialised cells, loops as monadic folds.  No EnGPar code is modelled here. *)
From Coq Require Export List Arith ZArith Bool Lia Permutation.
Export ListNotations.

(** [None] = undefined behaviour / failed assertion. *)
Definition obind {A B} (x : option A) (f : A -> option B) : option B :=
  match x with Some a => f a | None => None end.
Notation "x <- e1 ;; e2" := (obind e1 (fun x => e2))
  (at level 61, e1 at next level, right associativity).
Notation "' p <- e1 ;; e2" := (obind e1 (fun p => e2))
  (at level 61, p pattern, e1 at next level, right associativity).

(** for (x in l) s = f(s,x), stopping at the first undefined behaviour. *)
Fixpoint foldM {S X} (f : S -> X -> option S) (l : list X) (s : S) : option S :=
  match l with
  | [] => Some s
  | x :: r => s' <- f s x ;; foldM f r s'
  end.

Fixpoint mapM {X Y} (f : X -> option Y) (l : list X) : option (list Y) :=
  match l with
  | [] => Some []
  | x :: r => y <- f x ;; ys <- mapM f r ;; Some (y :: ys)
  end.

(** replace position i (no change when out of range) *)
Fixpoint upd {A} (l : list A) (i : nat) (x : A) : list A :=
  match l, i with
  | [], _ => []
  | _ :: r, 0 => x :: r
  | a :: r, S j => a :: upd r j x
  end.

(** A C array: cells are [None] until written. *)
Definition arr (A : Type) := list (option A).
Definition anew {A} (n : nat) : arr A := repeat None n.
Definition aget {A} (a : arr A) (i : nat) : option A :=
  match nth_error a i with Some (Some x) => Some x | _ => None end.
Definition aset {A} (a : arr A) (i : nat) (x : A) : option (arr A) :=
  if i <? length a then Some (upd a i (Some x)) else None.
Definition ainit {A} (l : list A) : arr A := map Some l.

(** association-list maps (std::unordered_map): the first binding wins *)
Definition zmap (A : Type) := list (Z * A).
Fixpoint zfind {A} (m : zmap A) (k : Z) : option A :=
  match m with
  | [] => None
  | (k', x) :: r => if Z.eqb k k' then Some x else zfind r k
  end.
Definition zset {A} (m : zmap A) (k : Z) (x : A) : zmap A := (k, x) :: m.

(** sums *)
Definition nsum (l : list nat) : nat := fold_right Nat.add 0 l.
Definition zsum (l : list Z) : Z := fold_right Z.add 0%Z l.

(** Run an iterator until it returns 0 (NULL); the fuel bounds the number of calls.
    [None] when the fuel runs out or a step is undefined. *)
Fixpoint drain {S} (step : S -> option (nat * S)) (fuel : nat) (s : S) : option (list nat) :=
  match fuel with
  | 0 => None
  | S f => '(h, s') <- step s ;;
           if h =? 0 then Some [] else r <- drain step f s' ;; Some (h :: r)
  end.

(** keys/values of occurrences *)
Definition vals_of {A} (k : nat) (l : list (nat * A)) : list A :=
  map snd (filter (fun p => fst p =? k) l).
Definition cnt_of {A} (k : nat) (l : list (nat * A)) : nat := length (vals_of k l).

(* ------------------------------------------------------------------ *)
(** * Lemmas *)

Lemma upd_length A (l : list A) i x : length (upd l i x) = length l.
Proof. revert i; induction l as [|a l IH]; intros [|i]; simpl; auto. Qed.

Lemma nth_error_upd_eq A (l : list A) i x : i < length l -> nth_error (upd l i x) i = Some x.
Proof. revert i; induction l as [|a l IH]; intros [|i] H; simpl in *; try lia; auto.
  apply IH; lia. Qed.

Lemma nth_error_upd_neq A (l : list A) i j x : i <> j -> nth_error (upd l i x) j = nth_error l j.
Proof. revert i j; induction l as [|a l IH]; intros [|i] [|j] H; simpl in *; auto; try lia.
Qed.

Lemma upd_app_r A (l r : list A) i x : upd (l ++ r) (length l + i) x = l ++ upd r i x.
Proof. induction l as [|a l IH]; simpl; auto. now rewrite IH. Qed.

Lemma upd_app_l A (l r : list A) i x : i < length l -> upd (l ++ r) i x = upd l i x ++ r.
Proof. revert i; induction l as [|a l IH]; intros [|i] H; simpl in *; auto; try lia.
  rewrite IH; auto; lia. Qed.

Lemma aset_some A (a : arr A) i x : i < length a -> aset a i x = Some (upd a i (Some x)).
Proof. intros H; unfold aset. apply Nat.ltb_lt in H. now rewrite H. Qed.

Lemma aset_inv A (a b : arr A) i x : aset a i x = Some b -> i < length a /\ b = upd a i (Some x).
Proof. unfold aset. destruct (Nat.ltb_spec i (length a)); intros H1; inversion H1; auto. Qed.

Lemma aset_length A (a b : arr A) i x : aset a i x = Some b -> length b = length a.
Proof. intros H; apply aset_inv in H as [_ ->]. apply upd_length. Qed.

Lemma aget_upd_eq A (a : arr A) i x : i < length a -> aget (upd a i (Some x)) i = Some x.
Proof. intros H; unfold aget. now rewrite nth_error_upd_eq. Qed.

Lemma aget_upd_neq A (a : arr A) i j x : i <> j -> aget (upd a i (Some x)) j = aget a j.
Proof. intros H; unfold aget. now rewrite nth_error_upd_neq. Qed.

Lemma anew_length A n : length (@anew A n) = n.
Proof. apply repeat_length. Qed.

Lemma aget_anew A n i : aget (@anew A n) i = None.
Proof. unfold aget, anew. destruct (nth_error (repeat None n) i) eqn:E; auto.
  apply nth_error_In in E. apply repeat_spec in E. now subst. Qed.

Lemma aget_ainit A (l : list A) i : aget (ainit l) i = nth_error l i.
Proof. unfold aget, ainit. rewrite nth_error_map. destruct (nth_error l i); reflexivity. Qed.

Lemma ainit_length A (l : list A) : length (ainit l) = length l.
Proof. apply map_length. Qed.

Lemma aget_lt A (a : arr A) i x : aget a i = Some x -> i < length a.
Proof. unfold aget. intros H. apply nth_error_Some. destruct (nth_error a i); congruence. Qed.

Lemma aget_app_l A (a b : arr A) i : i < length a -> aget (a ++ b) i = aget a i.
Proof. intros; unfold aget; now rewrite nth_error_app1. Qed.

Lemma aget_app_r A (a b : arr A) i : aget (a ++ b) (length a + i) = aget b i.
Proof. unfold aget; rewrite nth_error_app2 by lia. now replace (length a + i - length a) with i by lia. Qed.

Lemma foldM_app S X (f : S -> X -> option S) l1 l2 s :
  foldM f (l1 ++ l2) s = (s' <- foldM f l1 s ;; foldM f l2 s').
Proof. revert s; induction l1 as [|x l1 IH]; intros s; simpl; auto.
  destruct (f s x); simpl; auto. Qed.

Lemma foldM_map S X Y (f : S -> Y -> option S) (h : X -> Y) l s :
  foldM f (map h l) s = foldM (fun s x => f s (h x)) l s.
Proof. revert s; induction l as [|x l IH]; intros s; simpl; auto.
  destruct (f s (h x)); simpl; auto. Qed.

Lemma foldM_ext S X (f g : S -> X -> option S) l s :
  (forall s x, In x l -> f s x = g s x) -> foldM f l s = foldM g l s.
Proof. revert s; induction l as [|x l IH]; intros s H; simpl; auto.
  rewrite H by (left; auto). destruct (g s x); simpl; auto. apply IH. intros; apply H; right; auto. Qed.

Lemma foldM_concat S X (f : S -> X -> option S) ll s :
  foldM f (concat ll) s = foldM (fun s l => foldM f l s) ll s.
Proof. revert s; induction ll as [|l ll IH]; intros s; simpl; auto.
  rewrite foldM_app. destruct (foldM f l s); simpl; auto. Qed.

(** invariant rule, indexed by the processed prefix *)
Lemma foldM_inv S X (f : S -> X -> option S) (P : list X -> S -> Prop) :
  forall l s,
  P [] s ->
  (forall pre x post s, l = pre ++ x :: post -> P pre s -> exists s', f s x = Some s' /\ P (pre ++ [x]) s') ->
  exists s', foldM f l s = Some s' /\ P l s'.
Proof.
  intros l s H0 Hstep.
  cut (forall post pre s, l = pre ++ post -> P pre s -> exists s', foldM f post s = Some s' /\ P l s').
  { intros H; apply (H l [] s); auto. }
  induction post as [|x post IH]; intros pre s1 Hl Hp.
  - exists s1; split; auto. rewrite app_nil_r in Hl; now subst.
  - destruct (Hstep pre x post s1 Hl Hp) as (s2 & H2 & H3).
    destruct (IH (pre ++ [x]) s2) as (s3 & H4 & H5); auto.
    { now rewrite Hl, <- app_assoc. }
    exists s3; simpl. rewrite H2; auto.
Qed.

Arguments foldM_inv {S X} f P l s.

Lemma mapM_length X Y (f : X -> option Y) l r : mapM f l = Some r -> length r = length l.
Proof. revert r; induction l as [|x l IH]; simpl; intros r H.
  - inversion H; auto.
  - destruct (f x); simpl in H; [|discriminate]. destruct (mapM f l); simpl in H; [|discriminate].
    inversion H; simpl. f_equal. now apply IH. Qed.

Lemma mapM_some X Y (f : X -> option Y) (h : X -> Y) l :
  (forall x, In x l -> f x = Some (h x)) -> mapM f l = Some (map h l).
Proof. induction l as [|x l IH]; intros H; simpl; auto.
  rewrite H by (left; auto); simpl. rewrite IH; simpl; auto. intros; apply H; right; auto. Qed.

Lemma mapM_app X Y (f : X -> option Y) l1 l2 :
  mapM f (l1 ++ l2) = (a <- mapM f l1 ;; b <- mapM f l2 ;; Some (a ++ b)).
Proof. induction l1 as [|x l1 IH]; simpl.
  - destruct (mapM f l2); auto.
  - destruct (f x); simpl; auto. rewrite IH. destruct (mapM f l1); simpl; auto.
    destruct (mapM f l2); simpl; auto. Qed.

Lemma mapM_nth X Y (f : X -> option Y) l r i x :
  mapM f l = Some r -> nth_error l i = Some x -> exists y, nth_error r i = Some y /\ f x = Some y.
Proof. revert r i; induction l as [|a l IH]; simpl; intros r i H Hn.
  - destruct i; discriminate.
  - destruct (f a) eqn:Ea; simpl in H; [|discriminate].
    destruct (mapM f l) eqn:El; simpl in H; [|discriminate]. inversion H; subst.
    destruct i as [|i]; simpl in *.
    + inversion Hn; subst. eauto.
    + eapply IH; eauto. Qed.

Lemma nsum_app l1 l2 : nsum (l1 ++ l2) = nsum l1 + nsum l2.
Proof. induction l1; simpl; lia. Qed.
Lemma zsum_app l1 l2 : (zsum (l1 ++ l2) = zsum l1 + zsum l2)%Z.
Proof. induction l1 as [|a l1 IH]; simpl; auto. rewrite IH; lia. Qed.
Lemma zsum_perm l1 l2 : Permutation l1 l2 -> zsum l1 = zsum l2.
Proof. induction 1; simpl; lia. Qed.
Lemma nsum_perm l1 l2 : Permutation l1 l2 -> nsum l1 = nsum l2.
Proof. induction 1; simpl; lia. Qed.

Lemma length_concat A (ll : list (list A)) : length (concat ll) = nsum (map (@length A) ll).
Proof. induction ll as [|l ll IH]; simpl; auto. now rewrite app_length, IH. Qed.

Lemma zfind_zset_eq A (m : zmap A) k x : zfind (zset m k x) k = Some x.
Proof. simpl. now rewrite Z.eqb_refl. Qed.
Lemma zfind_zset_neq A (m : zmap A) k k' x : k <> k' -> zfind (zset m k x) k' = zfind m k'.
Proof. intros H; simpl. destruct (Z.eqb_spec k' k); congruence. Qed.

Lemma vals_of_app A k (l1 l2 : list (nat * A)) : vals_of k (l1 ++ l2) = vals_of k l1 ++ vals_of k l2.
Proof. unfold vals_of. now rewrite filter_app, map_app. Qed.
Lemma cnt_of_app A k (l1 l2 : list (nat * A)) : cnt_of k (l1 ++ l2) = cnt_of k l1 + cnt_of k l2.
Proof. unfold cnt_of. now rewrite vals_of_app, app_length. Qed.

Lemma vals_of_single_eq A k (x : A) : vals_of k [(k, x)] = [x].
Proof. unfold vals_of; simpl. now rewrite Nat.eqb_refl. Qed.
Lemma vals_of_single_neq A k k' (x : A) : k <> k' -> vals_of k [(k', x)] = [].
Proof. unfold vals_of; simpl; intros. destruct (Nat.eqb_spec k' k); simpl; congruence. Qed.

Lemma cnt_of_snoc_eq A k (x : A) l : cnt_of k (l ++ [(k, x)]) = cnt_of k l + 1.
Proof. rewrite cnt_of_app. f_equal. unfold cnt_of. now rewrite vals_of_single_eq. Qed.
Lemma cnt_of_snoc_neq A k k' (x : A) l : k <> k' -> cnt_of k (l ++ [(k', x)]) = cnt_of k l.
Proof. intros H. rewrite cnt_of_app. unfold cnt_of at 2. rewrite vals_of_single_neq by auto. simpl; lia. Qed.

Lemma skipn_app_exact A (l1 l2 : list A) : skipn (length l1) (l1 ++ l2) = l2.
Proof. induction l1; simpl; auto. Qed.
Lemma firstn_app_exact A (l1 l2 : list A) : firstn (length l1) (l1 ++ l2) = l1.
Proof. induction l1; simpl; auto. now f_equal. Qed.

Lemma seq_snoc a n : seq a (S n) = seq a n ++ [a + n].
Proof. replace (S n) with (n + 1) by lia. now rewrite seq_app. Qed.

Lemma nth_error_ext A (l1 l2 : list A) : (forall i, nth_error l1 i = nth_error l2 i) -> l1 = l2.
Proof. revert l2; induction l1 as [|a l1 IH]; intros [|b l2] H; auto.
  - specialize (H 0); discriminate.
  - specialize (H 0); discriminate.
  - f_equal. + specialize (H 0); simpl in H; congruence.
    + apply IH; intros i; apply (H (S i)). Qed.

Lemma nth_error_seq a n i : i < n -> nth_error (seq a n) i = Some (a + i).
Proof. revert a i; induction n as [|n IH]; intros a [|i] H; simpl; try lia.
  - f_equal; lia.
  - rewrite IH by lia. f_equal; lia. Qed.

Lemma nth_error_repeat_lt A (x : A) n i : i < n -> nth_error (repeat x n) i = Some x.
Proof. revert i; induction n as [|n IH]; intros [|i] H; simpl; try lia; auto. apply IH; lia. Qed.

Lemma NoDup_app_iff A (l1 l2 : list A) :
  NoDup (l1 ++ l2) <-> NoDup l1 /\ NoDup l2 /\ (forall x, In x l1 -> ~ In x l2).
Proof.
  induction l1 as [|a l1 IH]; simpl.
  - split; [intros H; repeat split; auto; constructor | tauto].
  - rewrite !NoDup_cons_iff, IH, in_app_iff. firstorder subst; auto.
Qed.

Lemma NoDup_nth_error_inj A (l : list A) i j x :
  NoDup l -> nth_error l i = Some x -> nth_error l j = Some x -> i = j.
Proof. intros H Hi Hj. rewrite NoDup_nth_error in H. apply H.
  - apply nth_error_Some; congruence. - congruence. Qed.

Lemma Forall2_impl A B (P Q : A -> B -> Prop) l1 l2 :
  (forall a b, P a b -> Q a b) -> Forall2 P l1 l2 -> Forall2 Q l1 l2.
Proof. intros H. induction 1; constructor; auto. Qed.
Lemma Forall2_nth_l A B (P : A -> B -> Prop) l1 l2 i a :
  Forall2 P l1 l2 -> nth_error l1 i = Some a -> exists b, nth_error l2 i = Some b /\ P a b.
Proof. intros H. revert i. induction H as [|x y l1 l2 Hxy HF IH]; intros [|i] Hi; simpl in *; try discriminate.
  - inversion Hi; subst; eauto. - auto. Qed.
Lemma Forall2_nth_r A B (P : A -> B -> Prop) l1 l2 i b :
  Forall2 P l1 l2 -> nth_error l2 i = Some b -> exists a, nth_error l1 i = Some a /\ P a b.
Proof. intros H. revert i. induction H as [|x y l1 l2 Hxy HF IH]; intros [|i] Hi; simpl in *; try discriminate.
  - inversion Hi; subst; eauto. - auto. Qed.
Lemma Forall2_len A B (P : A -> B -> Prop) l1 l2 : Forall2 P l1 l2 -> length l1 = length l2.
Proof. induction 1; simpl; auto. Qed.
