(** Model of the AA tree /repo/pcu/pcu_aa.c, used by PCU for the peers of a phase.
    A node is its key (what "less" compares) and its address; trees are values.  The shared
    sentinel pcu_aa_bottom is [Bot]; an operation that would modify the sentinel (split(bottom)
    increments its level) is undefined ([None]).  Levels are natural numbers (C: int). *)
From Verif Require Import Base.

Definition node := (Z * nat)%type.
Definition key (x : node) : Z := fst x.
(** pcu_aa.h:27 pcu_aa_less *)
Definition less (a b : node) : bool := Z.ltb (key a) (key b).
Definition same_node (a b : node) : bool := Z.eqb (fst a) (fst b) && (snd a =? snd b).

(** pcu_aa.h:18-24, pcu_aa.c:27-32 (bottom has level 0 and is its own child) *)
Inductive tree := Bot | Node (l : tree) (x : node) (lev : nat) (r : tree).
Definition lv (t : tree) : nat := match t with Bot => 0 | Node _ _ n _ => n end.
Definition rt (t : tree) : tree := match t with Bot => Bot | Node _ _ _ r => r end.

(** pcu_aa.c:44-54; on bottom every assignment stores what is already there *)
Definition skew (t : tree) : tree :=
  match t with
  | Bot => Bot
  | Node l x n r =>
      if lv l =? n then
        match l with
        | Bot => t        (* level 0 only: not a node *)
        | Node ll lx ln lr => Node ll lx ln (Node lr x n r)
        end
      else t
  end.

(** pcu_aa.c:56-67 *)
Definition split (t : tree) : option tree :=
  match t with
  | Bot => None           (* ++bottom.level *)
  | Node l x n r =>
      if lv (rt r) =? n then
        match r with
        | Bot => None     (* rotates the sentinel into the tree *)
        | Node rl rx rn rr => Some (Node (Node l x n rl) rx (S rn) rr)
        end
      else Some t
  end.

(** pcu_aa.c:69-92; returns the tree and the resulting node *)
Fixpoint insert (x : node) (t : tree) : option (tree * node) :=
  match t with
  | Bot => Some (Node Bot x 1 Bot, x)
  | Node l y n r =>
      '(t1, res) <- (if less x y then '(l', res) <- insert x l ;; Some (Node l' y n r, res)
                     else if less y x then '(r', res) <- insert x r ;; Some (Node l y n r', res)
                     else Some (Node l y n r, y)) ;;
      t2 <- split (skew t1) ;;
      Some (t2, res)
  end.

Definition set_level (t : tree) (n : nat) : tree :=
  match t with Bot => Bot | Node l x _ r => Node l x n r end.
Definition map_right (f : tree -> tree) (t : tree) : tree :=
  match t with Bot => Bot | Node l x n r => Node l x n (f r) end.

(** pcu_aa.c:125-138, the rebalancing on the way back; on bottom the test is 0 < -1 *)
Definition rebalance (t : tree) : option tree :=
  match t with
  | Bot => Some Bot
  | Node l x n r =>
      if (lv l + 1 <? n) || (lv r + 1 <? n) then
        let n' := n - 1 in
        let r1 := if n' <? lv r then set_level r n' else r in
        let t1 := skew (Node l x n' r1) in
        let t2 := map_right skew t1 in
        let t3 := map_right (map_right skew) t2 in
        t4 <- split t3 ;;
        match t4 with
        | Bot => None
        | Node l4 x4 n4 r4 => r5 <- split r4 ;; Some (Node l4 x4 n4 r5)
        end
      else Some t
  end.

(** pcu_aa.c:94-101 struct remove_vars (x and less are parameters) *)
Record rvars := { v_deleted : option node; v_last : option node; v_succ : option node }.

(** pcu_aa.c:118-124: *t == v->last, deleted != bottom and deleted has the key of x *)
Definition at_removal (x y : node) (v : rvars) : bool :=
  match v_last v, v_deleted v with
  | Some la, Some d => same_node y la && negb (less x d) && negb (less d x)
  | _, _ => false
  end.

(** pcu_aa.c:103-139; last and deleted are set on the way down, successor on the way back *)
Fixpoint remove_successor (x : node) (t : tree) (v : rvars) : option (tree * rvars) :=
  match t with
  | Bot => Some (Bot, v)
  | Node l y n r =>
      '(t1, v1) <- (if less x y
                    then '(l', v') <- remove_successor x l {| v_deleted := v_deleted v; v_last := Some y; v_succ := v_succ v |} ;;
                         Some (Node l' y n r, v')
                    else '(r', v') <- remove_successor x r {| v_deleted := Some y; v_last := Some y; v_succ := v_succ v |} ;;
                         Some (Node l y n r', v')) ;;
      if at_removal x y v1
      then Some (rt t1, {| v_deleted := v_deleted v1; v_last := v_last v1; v_succ := Some y |})
      else t2 <- rebalance t1 ;; Some (t2, v1)
  end.

(** pcu_aa.c:141-155; [None] = abort() or descent below bottom *)
Fixpoint swap_successor (d s : node) (t : tree) : option tree :=
  match t with
  | Bot => None
  | Node l y n r =>
      if less d y then l' <- swap_successor d s l ;; Some (Node l' y n r)
      else if less y d then r' <- swap_successor d s r ;; Some (Node l y n r')
      else if same_node d y then Some (Node l s n r) else None
  end.

(** pcu_aa.c:157-172; the second component is the node returned, [None] for 0 *)
Definition remove (x : node) (t : tree) : option (tree * option node) :=
  '(t1, v) <- remove_successor x t {| v_deleted := None; v_last := None; v_succ := None |} ;;
  match v_succ v, v_deleted v with
  | Some s, Some d => if same_node s d then Some (t1, Some d)
                      else t2 <- swap_successor d s t1 ;; Some (t2, Some d)
  | Some _, None => None
  | None, _ => Some (t1, None)
  end.

(** pcu_aa.c:174-184 *)
Fixpoint find (x : node) (t : tree) : option node :=
  match t with
  | Bot => None
  | Node l y _ r => if less x y then find x l else if less y x then find x r else Some y
  end.

(** pcu_aa.c:186-191 *)
Fixpoint count (t : tree) : nat :=
  match t with Bot => 0 | Node l _ _ r => count l + count r + 1 end.

(** in-order traversal and depth: vocabulary of the specification, not code *)
Fixpoint elements (t : tree) : list node :=
  match t with Bot => [] | Node l x _ r => elements l ++ x :: elements r end.
Fixpoint height (t : tree) : nat :=
  match t with Bot => 0 | Node l _ _ r => S (Nat.max (height l) (height r)) end.
