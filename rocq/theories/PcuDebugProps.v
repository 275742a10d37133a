(** C70: PCU's debug files. *)
From Verif Require Import Base.
From Verif Require Import PcuDebugModel.
From Coq Require Import Ascii String.
Local Open Scope list_scope.
Local Open Scope Z_scope.

(** * Specification *)
(** the character code *)
Definition code (c : ascii) : Z := Z.of_nat (nat_of_ascii c).
(** the number a sequence of digits stands for *)
Definition value (t : text) : Z := fold_left (fun a c => 10 * a + (code c - 48)) t 0.
(** [t] is the decimal numeral of [z]: digits only (48 is '0', 57 is '9'), no leading zero *)
Definition prints_as (z : Z) (t : text) : Prop :=
  value t = z /\ Forall (fun c => 48 <= code c <= 57) t /\ t <> [] /\ (forall r, t = "0"%char :: r -> r = []).
(** the file of rank [r] of [n]: debug<r>.txt in the working directory, or in debug/<r/2048> when there are more than 2048 ranks *)
Definition debug_file (n r : Z) (f : text) : Prop :=
  exists t, prints_as r t /\
    (n <= 2048 /\ f = txt "debug" ++ t ++ txt ".txt" \/
     2048 < n /\ exists u, prints_as (r / 2048) u /\ f = txt "debug/" ++ u ++ txt "/debug" ++ t ++ txt ".txt").

(** * Decimal numerals *)
Lemma value_snoc t c : value (t ++ [c]) = 10 * value t + (code c - 48).
Proof. unfold value. rewrite fold_left_app. reflexivity. Qed.
Lemma code_digit d : 0 <= d < 10 -> code (digit d) = 48 + d.
Proof.
  intros H. unfold code, digit. rewrite nat_ascii_embedding by lia. lia.
Qed.
Lemma dec_loop_ok f : forall z acc, 0 <= z < 10 ^ Z.of_nat f -> (0 < f)%nat -> exists d, dec_loop f z acc = d ++ acc /\ prints_as z d /\ (List.length d <= f)%nat.
Proof.
  induction f as [|f IH]; intros z acc Hz Hf; [lia|]. cbn [dec_loop]. destruct (Z.ltb_spec z 10) as [L|L].
  - exists [digit z]. repeat split.
    + unfold value. cbn [fold_left]. rewrite code_digit by lia. lia.
    + constructor; [rewrite code_digit by lia; lia|constructor].
    + discriminate.
    + intros r E. inversion E. reflexivity.
    + cbn. lia.
  - assert (F : (0 < f)%nat). { destruct f; [|lia]. cbn in Hz. lia. }
    assert (Hq : 0 <= z / 10 < 10 ^ Z.of_nat f).
    { rewrite Nat2Z.inj_succ, Z.pow_succ_r in Hz by lia. split; [apply Z.div_pos; lia|apply Z.div_lt_upper_bound; lia]. }
    destruct (IH (z / 10) (digit (z mod 10) :: acc) Hq F) as (d & E & (V & D & N & O) & Ln).
    pose proof (Z.mod_pos_bound z 10 ltac:(lia)) as M.
    exists (d ++ [digit (z mod 10)]). split; [rewrite E, <- app_assoc; reflexivity|]. split.
    + split; [rewrite value_snoc, V, code_digit by lia; pose proof (Z.div_mod z 10 ltac:(lia)); lia|].
      split; [apply Forall_app; split; [exact D|constructor; [rewrite code_digit by lia; lia|constructor]]|].
      split; [destruct d; discriminate|].
      intros r Er. exfalso. clear E. destruct d as [|c d']; [apply N; reflexivity|]. generalize dependent (digit (z mod 10)). intros x Er. cbn [app] in Er. inversion Er as [[Ec Er']]. subst c.
      assert (X1 : 1 <= z / 10) by (apply Z.div_le_lower_bound; lia). clear -O V X1. pose proof (O d' eq_refl) as ->. change (0 = z / 10) in V. lia.
    + rewrite app_length. cbn. lia.
Qed.
Lemma dec_ok z : 0 <= z < 10 ^ 10 -> prints_as z (dec z).
Proof.
  intros H. destruct (dec_loop_ok 10 z []) as (d & E & P & _); [exact H|lia|]. unfold dec. rewrite E, app_nil_r. exact P.
Qed.
Lemma dec_more f : forall g z acc, 0 <= z < 10 ^ Z.of_nat f -> (0 < f)%nat -> (f <= g)%nat -> dec_loop g z acc = dec_loop f z acc.
Proof.
  induction f as [|f IH]; intros g z acc Hz Hf Hg; [lia|]. destruct g as [|g]; [lia|]. cbn [dec_loop]. destruct (Z.ltb_spec z 10) as [L|L]; [reflexivity|].
  assert (F : (0 < f)%nat). { destruct f; [|lia]. cbn in Hz. lia. }
  apply IH; try lia. rewrite Nat2Z.inj_succ, Z.pow_succ_r in Hz by lia. split; [apply Z.div_pos; lia|apply Z.div_lt_upper_bound; lia].
Qed.
Lemma dec_len z : 0 <= z < 10 ^ 9 -> (List.length (dec z) <= 9)%nat.
Proof.
  intros H. unfold dec. rewrite (dec_more 9) by (first [exact H|lia]). destruct (dec_loop_ok 9 z []) as (d & E & _ & L); [exact H|lia|].
  rewrite E, app_nil_r. exact L.
Qed.
Lemma prints_unique z t : prints_as z t -> forall z', prints_as z' t -> z = z'.
Proof. intros (V & _) z' (V' & _). congruence. Qed.

(** * Paths *)
Lemma split_slash p : forall cur q, split_at (p ++ "/"%char :: q) cur = split_at p cur ++ split_at q [].
Proof.
  induction p as [|c p IH]; intros cur q.
  - cbn. destruct cur; reflexivity.
  - cbn [app split_at]. destruct (Ascii.eqb c "/"); [|apply IH]. destruct cur; [apply IH|]. rewrite IH. reflexivity.
Qed.
Lemma split_plain p : forall cur, ~ In "/"%char p -> split_at p cur = match cur ++ p with [] => [] | x => [x] end.
Proof.
  induction p as [|c p IH]; intros cur N; cbn [split_at].
  - rewrite app_nil_r. destruct cur; reflexivity.
  - destruct (Ascii.eqb_spec c "/") as [->|K]; [exfalso; apply N; left; reflexivity|]. rewrite IH by (intros X; apply N; right; exact X).
    rewrite <- app_assoc. reflexivity.
Qed.
Lemma digits_plain z t : prints_as z t -> ~ In "/"%char t.
Proof. intros (_ & D & _) I. rewrite Forall_forall in D. apply D in I. change (code "/") with 47 in I. lia. Qed.
Lemma comps_plain p : p <> [] -> ~ In "/"%char p -> comps p = [p].
Proof. intros N S. unfold comps. rewrite split_plain by exact S. cbn. destruct p; [congruence|reflexivity]. Qed.
Definition D0 : text := txt "debug".
Lemma comps_debug : comps (txt "debug/") = [D0].
Proof. reflexivity. Qed.
Lemma comps_dir u : u <> [] -> ~ In "/"%char u -> comps (txt "debug/" ++ u ++ txt "/") = [D0; u].
Proof.
  intros N S. unfold comps. change (txt "debug/" ++ u ++ txt "/") with (D0 ++ "/"%char :: (u ++ "/"%char :: [])).
  rewrite split_slash. fold (comps D0). rewrite split_slash. fold (comps u). rewrite (comps_plain u N S). reflexivity.
Qed.
Lemma plain_file t : ~ In "/"%char t -> ~ In "/"%char (txt "debug" ++ t ++ txt ".txt").
Proof.
  intros S I. apply in_app_or in I. destruct I as [I|I]; [cbn in I; repeat (destruct I as [I|I]; [discriminate|]); contradiction|].
  apply in_app_or in I. destruct I as [I|I]; [exact (S I)|]. cbn in I; repeat (destruct I as [I|I]; [discriminate|]); contradiction.
Qed.
Lemma comps_file t : ~ In "/"%char t -> comps (txt "debug" ++ t ++ txt ".txt") = [txt "debug" ++ t ++ txt ".txt"].
Proof. intros S. apply comps_plain; [discriminate|apply plain_file; exact S]. Qed.
Lemma comps_deep u t : u <> [] -> ~ In "/"%char u -> ~ In "/"%char t ->
  comps (txt "debug/" ++ u ++ txt "/debug" ++ t ++ txt ".txt") = [D0; u; txt "debug" ++ t ++ txt ".txt"].
Proof.
  intros N S T. unfold comps. change (txt "debug/" ++ u ++ txt "/debug" ++ t ++ txt ".txt") with (D0 ++ "/"%char :: (u ++ "/"%char :: (txt "debug" ++ t ++ txt ".txt"))).
  rewrite split_slash. fold (comps D0). rewrite split_slash. fold (comps u). rewrite (comps_plain u N S).
  fold (comps (txt "debug" ++ t ++ txt ".txt")). rewrite (comps_file t T). reflexivity.
Qed.

(** * What a rank does *)
Definition path1 (r : Z) : text := txt "debug/" ++ dec (r / 2048) ++ txt "/".
Definition file1 (r : Z) : text := txt "debug/" ++ dec (r / 2048) ++ txt "/debug" ++ dec r ++ txt ".txt".
Definition file0 (r : Z) : text := txt "debug" ++ dec r ++ txt ".txt".
Lemma append_fits (s : text) (m : nat) (t : text) : (List.length s + List.length t < m)%nat -> path_append s m t = s ++ t.
Proof. intros H. unfold path_append. rewrite firstn_all2 by lia. reflexivity. Qed.
Lemma open_fits p r : 0 <= r < 10 ^ 9 -> open_name p (txt "txt") r = p ++ dec r ++ txt ".txt".
Proof.
  intros H. pose proof (dec_len r H). unfold open_name. rewrite firstn_all2; [reflexivity|]. rewrite !app_length. unfold max_rank_chars. change (List.length (txt ".")) with 1%nat. change (List.length (txt "txt")) with 3%nat. lia.
Qed.
Lemma quot_range r : 0 <= r < 10 ^ 9 -> 0 <= r / 2048 < 10 ^ 9.
Proof. intros H. split; [apply Z.div_pos; lia|]. apply Z.le_lt_trans with r; [|lia]. apply Z.div_le_upper_bound; lia. Qed.
Lemma prog_deep n r : 2048 < n -> 0 <= r < 10 ^ 9 ->
  debug_open n r = Mkdir (txt "debug/") :: (if r mod 2048 =? 0 then [Mkdir (path1 r)] else []) ++ [Enter; Leave; Open (file1 r)].
Proof.
  intros Hn Hr. unfold debug_open, fanout. destruct (Z.ltb_spec 2048 n); [|lia]. cbv zeta.
  pose proof (dec_len (r / 2048) (quot_range r Hr)) as L.
  assert (E : path_append (txt "debug/") bufsize (dec (r / 2048) ++ txt "/") = path1 r).
  { apply append_fits. rewrite app_length. change (List.length (txt "debug/")) with 6%nat. change (List.length (txt "/")) with 1%nat. unfold bufsize. lia. }
  rewrite E. assert (E2 : path_append (path1 r) bufsize (txt "debug") = path1 r ++ txt "debug").
  { apply append_fits. unfold path1. rewrite !app_length. change (List.length (txt "debug/")) with 6%nat. change (List.length (txt "/")) with 1%nat. change (List.length (txt "debug")) with 5%nat.
    unfold bufsize. lia. }
  rewrite E2, open_fits by exact Hr. unfold path1 at 2. unfold file1. rewrite <- !app_assoc. reflexivity.
Qed.
Lemma prog_flat n r : n <= 2048 -> 0 <= r < 10 ^ 9 -> debug_open n r = [Open (file0 r)].
Proof.
  intros Hn Hr. unfold debug_open, fanout. destruct (Z.ltb_spec 2048 n); [lia|]. rewrite append_fits by (change (List.length ([] : text)) with 0%nat; change (List.length (txt "debug")) with 5%nat; unfold bufsize; lia).
  rewrite open_fits by exact Hr. reflexivity.
Qed.

(** * Counting moves *)
Lemma nsum_cons a l : nsum (a :: l) = (a + nsum l)%nat.
Proof. reflexivity. Qed.
Definition ranks (n : Z) : list Z := map Z.of_nat (seq 0 (Z.to_nat n)).
Lemma ranks_in n r : In r (ranks n) <-> 0 <= r < n.
Proof.
  unfold ranks. rewrite in_map_iff. split.
  - intros (k & <- & H). apply in_seq in H. lia.
  - intros H. exists (Z.to_nat r). split; [lia|]. apply in_seq. lia.
Qed.
Lemma ranks_nodup n : NoDup (ranks n).
Proof. unfold ranks. apply FinFun.Injective_map_NoDup; [intros a b; lia|apply seq_NoDup]. Qed.
Lemma all_or n (P : Z -> bool) : (forall r, 0 <= r < n -> P r = true) \/ exists r, 0 <= r < n /\ P r = false.
Proof.
  destruct (forallb P (ranks n)) eqn:E.
  - left. rewrite forallb_forall in E. intros r H. apply E, ranks_in, H.
  - right. assert (X : exists r, In r (ranks n) /\ P r = false).
    { clear -E. induction (ranks n) as [|a l IH]; [discriminate|]. cbn in E. destruct (P a) eqn:Pa; [destruct (IH E) as (r & I & Q); exists r; split; [right; exact I|exact Q]|].
      exists a. split; [left; reflexivity|exact Pa]. }
    destruct X as (r & I & Q). exists r. split; [apply ranks_in, I|exact Q].
Qed.
Definition left_over (n : Z) (todo : Z -> list act) : nat := nsum (map (fun r => List.length (todo r)) (ranks n)).
Lemma left_set n todo r (a : act) rest : 0 <= r < n -> todo r = a :: rest -> left_over n todo = S (left_over n (zset1 todo r rest)).
Proof.
  intros H E. unfold left_over. assert (I : In r (ranks n)) by (apply ranks_in, H). pose proof (ranks_nodup n) as N. revert I N.
  generalize (ranks n). intros l. induction l as [|x l IH]; intros I N; [contradiction|]. inversion N as [|x0 l0 Nx Nl]; subst. cbn [map]. rewrite !nsum_cons.
  destruct (Z.eq_dec x r) as [->|K].
  - unfold zset1 at 1. rewrite Z.eqb_refl, E. cbn [List.length].
    rewrite (map_ext_in (fun q => List.length (zset1 todo r rest q)) (fun q => List.length (todo q))); [lia|].
    intros q Q. unfold zset1. destruct (Z.eqb_spec q r) as [->|]; [contradiction|reflexivity].
  - destruct I as [->|I]; [congruence|]. rewrite (IH I Nl). unfold zset1 at 2. destruct (Z.eqb_spec x r); [congruence|]. lia.
Qed.
Lemma step_count n s s' : dstep n s s' -> left_over n (d_todo s) = S (left_over n (d_todo s')).
Proof. intros H. destruct H; cbn [d_todo]; eapply left_set; eassumption. Qed.
Lemma steps_count n k s s' : dsteps n k s s' -> left_over n (d_todo s) = (k + left_over n (d_todo s'))%nat.
Proof. induction 1 as [|k s1 s2 s3 _ IH St]; [reflexivity|]. rewrite IH, (step_count _ _ _ St). lia. Qed.

(** * The invariant *)
Lemma z1_same {B} (f : Z -> B) i x : zset1 f i x i = x.
Proof. unfold zset1. rewrite Z.eqb_refl. reflexivity. Qed.
Lemma z1_other {B} (f : Z -> B) i x j : j <> i -> zset1 f i x j = f j.
Proof. intros H. unfold zset1. destruct (Z.eqb_spec j i); [congruence|reflexivity]. Qed.
Definition has_dirs (dirs : list (list text)) (r : Z) : Prop := In [D0] dirs /\ (r mod 2048 = 0 -> In [D0; dec (r / 2048)] dirs).
Definition stage (n : Z) (s : dstate) (r : Z) : Prop :=
  d_todo s r = Mkdir (txt "debug/") :: (if r mod 2048 =? 0 then [Mkdir (path1 r)] else []) ++ [Enter; Leave; Open (file1 r)] /\ d_in s r = false
  \/ d_todo s r = [Mkdir (path1 r); Enter; Leave; Open (file1 r)] /\ d_in s r = false /\ In [D0] (d_dirs s)
  \/ d_todo s r = [Enter; Leave; Open (file1 r)] /\ d_in s r = false /\ has_dirs (d_dirs s) r
  \/ d_todo s r = [Leave; Open (file1 r)] /\ d_in s r = true /\ has_dirs (d_dirs s) r
  \/ d_todo s r = [Open (file1 r)] /\ d_in s r = true /\ has_dirs (d_dirs s) r /\ (forall q, 0 <= q < n -> d_in s q = true)
  \/ d_todo s r = [] /\ d_in s r = true /\ has_dirs (d_dirs s) r /\ d_file s r = Some (file1 r).
Definition inv (n : Z) (s : dstate) : Prop := In [] (d_dirs s) /\ forall r, 0 <= r < n -> stage n s r.
Lemma in_dirs n s r : inv n s -> 0 <= r < n -> d_in s r = true -> has_dirs (d_dirs s) r.
Proof.
  intros (_ & I) H E. destruct (I r H) as [(_ & B)|[(_ & B & _)|[(_ & B & _)|[(_ & _ & B)|[(_ & _ & B & _)|(_ & _ & B & _)]]]]]; congruence || exact B.
Qed.
Lemma has_more d ds r : has_dirs ds r -> has_dirs (d :: ds) r.
Proof. intros (A & B). split; [right; exact A|intros X; right; apply B, X]. Qed.
Lemma parent_file1 r : 0 <= r < 10 ^ 9 -> parent (file1 r) = [D0; dec (r / 2048)].
Proof.
  intros H. pose proof (quot_range r H). unfold parent, file1. rewrite comps_deep; [reflexivity| | |].
  - destruct (dec_ok (r / 2048)) as (_ & _ & N & _); [lia|exact N].
  - apply (digits_plain (r / 2048)), dec_ok. lia.
  - apply (digits_plain r), dec_ok. lia.
Qed.
Lemma comps_path1 r : 0 <= r < 10 ^ 9 -> comps (path1 r) = [D0; dec (r / 2048)].
Proof.
  intros H. pose proof (quot_range r H). unfold path1. apply comps_dir.
  - destruct (dec_ok (r / 2048)) as (_ & _ & N & _); [lia|exact N].
  - apply (digits_plain (r / 2048)), dec_ok. lia.
Qed.
Lemma mkdir_inj p q l l' : Mkdir p :: l = Mkdir q :: l' -> p = q /\ l = l'.
Proof. intros E. inversion E. auto. Qed.
Lemma open_inj p q l l' : Open p :: l = Open q :: l' -> p = q /\ l = l'.
Proof. intros E. inversion E. auto. Qed.
(** the other ranks are not disturbed *)
Lemma stage_other n s s' r : d_todo s' r = d_todo s r -> d_in s' r = d_in s r -> d_file s' r = d_file s r ->
  (forall d, In d (d_dirs s) -> In d (d_dirs s')) -> ((forall q, 0 <= q < n -> d_in s q = true) -> forall q, 0 <= q < n -> d_in s' q = true) -> stage n s r -> stage n s' r.
Proof.
  intros E1 E2 E3 M A St. unfold stage, has_dirs in *. rewrite E1, E2, E3.
  destruct St as [St|[(a & b & c)|[(a & b & c & d)|[(a & b & c & d)|[(a & b & (c & d) & e)|(a & b & (c & d) & e)]]]]].
  - left; exact St.
  - right; left; repeat split; auto 8.
  - right; right; left; repeat split; auto 8.
  - right; right; right; left; repeat split; auto 8.
  - right; right; right; right; left; repeat split; repeat split; auto 8.
  - right; right; right; right; right; repeat split; repeat split; auto 8.
Qed.
Lemma quot_rank n r : 0 <= r < n -> let q := r / 2048 * 2048 in 0 <= q < n /\ q mod 2048 = 0 /\ q / 2048 = r / 2048.
Proof.
  intros H q. pose proof (Z.div_mod r 2048 ltac:(lia)). pose proof (Z.mod_pos_bound r 2048 ltac:(lia)). assert (0 <= r / 2048) by (apply Z.div_pos; lia).
  unfold q. split; [lia|]. split; [apply Z.mod_mul; lia|apply Z.div_mul; lia].
Qed.
Lemma open_exists n s r : inv n s -> 0 <= r < n -> n <= 10 ^ 9 -> (forall q, 0 <= q < n -> d_in s q = true) -> In (parent (file1 r)) (d_dirs s).
Proof.
  intros I H B A. rewrite parent_file1 by lia. destruct (quot_rank n r H) as (Q1 & Q2 & Q3).
  destruct (in_dirs n s _ I Q1 (A _ Q1)) as (_ & K). rewrite <- Q3. apply K, Q2.
Qed.
Lemma inv_step n s s' : n <= 10 ^ 9 -> inv n s -> dstep n s s' -> inv n s'.
Proof.
  intros B I St. pose proof I as (I0 & I1). destruct St as [s r p rest H E P|s r rest H E|s r rest H E A|s r p rest H E P|s r p rest H E P]; (split; [cbn; tauto|]); intros q Hq.
  - destruct (Z.eq_dec q r) as [->|K].
    + unfold stage. cbn [d_todo d_in d_dirs d_file]. rewrite z1_same. pose proof (I1 r H) as S1. unfold stage in S1. rewrite E in S1.
      destruct S1 as [(a & b)|[(a & b & c)|[(a & _)|[(a & _)|[(a & _)|(a & _)]]]]]; try discriminate a.
      * (first [apply mkdir_inj in a|apply open_inj in a]); destruct a as (-> & ->). rewrite comps_debug. destruct (Z.eqb_spec (r mod 2048) 0) as [M|M].
        -- right; left. cbn [app]. split; [reflexivity|]. split; [exact b|left; reflexivity].
        -- right; right; left. cbn [app]. split; [reflexivity|]. split; [exact b|]. split; [left; reflexivity|intros X; contradiction].
      * (first [apply mkdir_inj in a|apply open_inj in a]); destruct a as (-> & ->). rewrite comps_path1 by lia. right; right; left. split; [reflexivity|]. split; [exact b|]. split; [right; exact c|intros _; left; reflexivity].
    + apply (stage_other n s); cbn [d_todo d_in d_dirs d_file]; [apply z1_other, K|reflexivity|reflexivity|intros d X; right; exact X|intros A; exact A|apply I1, Hq].
  - destruct (Z.eq_dec q r) as [->|K].
    + unfold stage. cbn [d_todo d_in d_dirs d_file]. rewrite !z1_same. pose proof (I1 r H) as S1. unfold stage in S1. rewrite E in S1.
      destruct S1 as [(a & b)|[(a & b & c)|[(a & b & c)|[(a & _)|[(a & _)|(a & _)]]]]]; try discriminate a.
      injection a as ->. right; right; right; left. auto.
    + apply (stage_other n s); cbn [d_todo d_in d_dirs d_file]; [apply z1_other, K|apply z1_other, K|reflexivity|auto| |apply I1, Hq].
      intros A x Hx. unfold zset1. destruct (x =? r); [reflexivity|apply A, Hx].
  - destruct (Z.eq_dec q r) as [->|K].
    + unfold stage. cbn [d_todo d_in d_dirs d_file]. rewrite !z1_same. pose proof (I1 r H) as S1. unfold stage in S1. rewrite E in S1.
      destruct S1 as [(a & b)|[(a & b & c)|[(a & b & c)|[(a & b & c)|[(a & _)|(a & _)]]]]]; try discriminate a.
      injection a as ->. right; right; right; right; left. auto.
    + apply (stage_other n s); cbn [d_todo d_in d_dirs d_file]; [apply z1_other, K|reflexivity|reflexivity|auto|intros A1; exact A1|apply I1, Hq].
  - destruct (Z.eq_dec q r) as [->|K].
    + unfold stage. cbn [d_todo d_in d_dirs d_file]. rewrite !z1_same. pose proof (I1 r H) as S1. unfold stage in S1. rewrite E in S1.
      destruct S1 as [(a & b)|[(a & b & c)|[(a & b & c)|[(a & b & c)|[(a & b & c & d)|(a & _)]]]]]; try discriminate a.
      (first [apply mkdir_inj in a|apply open_inj in a]); destruct a as (-> & ->). right; right; right; right; right. auto.
    + apply (stage_other n s); cbn [d_todo d_in d_dirs d_file]; [apply z1_other, K|reflexivity|apply z1_other, K|auto|intros A1; exact A1|apply I1, Hq].
  - exfalso. pose proof (I1 r H) as S1. unfold stage in S1. rewrite E in S1.
    destruct S1 as [(a & b)|[(a & b & c)|[(a & b & c)|[(a & b & c)|[(a & b & c & d)|(a & _)]]]]]; try discriminate a.
    (first [apply mkdir_inj in a|apply open_inj in a]); destruct a as (-> & ->). apply P, (open_exists n); assumption.
Qed.
Lemma inv_start n dirs : 2048 < n <= 10 ^ 9 -> In [] dirs -> inv n (dstart n dirs).
Proof. intros H I. split; [exact I|]. intros r Hr. left. split; [apply prog_deep; lia|reflexivity]. Qed.
Lemma inv_moves n s : n <= 10 ^ 9 -> inv n s -> ~ dfinished n s -> exists s', dstep n s s'.
Proof.
  intros B I F. pose proof I as (I0 & I1). destruct (all_or n (d_in s)) as [A|(r & H & E)].
  - destruct (all_or n (fun r => match d_todo s r with [] => true | _ => false end)) as [Z|(r & H & E)].
    + exfalso. apply F. intros r H. specialize (Z r H). cbn beta in Z. destruct (d_todo s r); [reflexivity|discriminate].
    + pose proof (A r H) as T. destruct (I1 r H) as [(_ & b)|[(_ & b & _)|[(_ & b & _)|[(a & _)|[(a & _)|(a & _)]]]]]; try congruence.
      * eexists. eapply ds_leave; [exact H|exact a|exact A].
      * eexists. eapply ds_open; [exact H|exact a|]. apply (open_exists n); assumption.
      * cbn beta in E. rewrite a in E. discriminate.
  - destruct (I1 r H) as [(a & _)|[(a & _ & c)|[(a & _)|[(_ & b & _)|[(_ & b & _)|(_ & b & _)]]]]]; try congruence.
    + eexists. eapply ds_mkdir; [exact H|exact a|]. exact I0.
    + eexists. eapply ds_mkdir; [exact H|exact a|]. unfold parent. rewrite comps_path1 by lia. exact c.
    + eexists. eapply ds_enter; [exact H|exact a].
Qed.
Lemma inv_nofail n s : n <= 10 ^ 9 -> inv n s -> ~ dfails n s.
Proof.
  intros B (I0 & I1) (r & p & rest & H & E & N). pose proof (I1 r H) as S1. unfold stage in S1. rewrite E in S1.
  destruct S1 as [(a & b)|[(a & b & c)|[(a & b & c)|[(a & b & c)|[(a & b & c & d)|(a & _)]]]]]; try discriminate a.
  - (first [apply mkdir_inj in a|apply open_inj in a]); destruct a as (-> & ->). apply N. exact I0.
  - (first [apply mkdir_inj in a|apply open_inj in a]); destruct a as (-> & ->). apply N. unfold parent. rewrite comps_path1 by lia. exact c.
Qed.
(** at most 2048 ranks *)
Definition flat (n : Z) (s : dstate) : Prop :=
  In [] (d_dirs s) /\ forall r, 0 <= r < n -> d_todo s r = [Open (file0 r)] \/ d_todo s r = [] /\ d_file s r = Some (file0 r).
Lemma parent_file0 r : 0 <= r < 10 ^ 9 -> parent (file0 r) = [].
Proof. intros H. unfold parent, file0. rewrite comps_file; [reflexivity|]. apply (digits_plain r), dec_ok. lia. Qed.
Lemma flat_step n s s' : n <= 10 ^ 9 -> flat n s -> dstep n s s' -> flat n s'.
Proof.
  intros B (I0 & I1) St. destruct St as [s r p rest H E P|s r rest H E|s r rest H E A|s r p rest H E P|s r p rest H E P];
    try (exfalso; destruct (I1 r H) as [X|(X & _)]; rewrite E in X; discriminate X).
  - split; [exact I0|]. intros q Hq. cbn [d_todo d_file]. destruct (Z.eq_dec q r) as [->|K]; [|rewrite !z1_other by exact K; apply I1, Hq].
    rewrite !z1_same. right. destruct (I1 r H) as [X|(X & _)]; rewrite E in X; [|discriminate X]. apply open_inj in X; destruct X as (-> & ->). split; reflexivity.
  - exfalso. destruct (I1 r H) as [X|(X & _)]; rewrite E in X; [|discriminate X]. apply open_inj in X; destruct X as (-> & ->). apply P. rewrite parent_file0 by lia. exact I0.
Qed.
Lemma flat_moves n s : n <= 10 ^ 9 -> flat n s -> ~ dfinished n s -> exists s', dstep n s s'.
Proof.
  intros B (I0 & I1) F. destruct (all_or n (fun r => match d_todo s r with [] => true | _ => false end)) as [Z|(r & H & E)].
  - exfalso. apply F. intros r H. specialize (Z r H). cbn beta in Z. destruct (d_todo s r); [reflexivity|discriminate].
  - destruct (I1 r H) as [X|(X & _)]; [|cbn beta in E; rewrite X in E; discriminate]. eexists. eapply ds_open; [exact H|exact X|]. rewrite parent_file0 by lia. exact I0.
Qed.
Lemma steps_inv n (Q : dstate -> Prop) : (forall s s', Q s -> dstep n s s' -> Q s') -> forall k s s', dsteps n k s s' -> Q s -> Q s'.
Proof. intros St k s s' H. induction H as [|k s1 s2 s3 _ IH S1]; auto. intros X. eapply St; [apply IH, X|exact S1]. Qed.

(** * The claim *)
Lemma file1_ok n r : 2048 < n -> 0 <= r < 10 ^ 9 -> debug_file n r (file1 r).
Proof.
  intros Hn Hr. pose proof (quot_range r Hr). exists (dec r). split; [apply dec_ok; lia|]. right. split; [exact Hn|]. exists (dec (r / 2048)). split; [apply dec_ok; lia|reflexivity].
Qed.
Lemma file0_ok n r : n <= 2048 -> 0 <= r < 10 ^ 9 -> debug_file n r (file0 r).
Proof. intros Hn Hr. exists (dec r). split; [apply dec_ok; lia|]. left. split; [exact Hn|reflexivity]. Qed.
Lemma left_start n dirs : n <= 10 ^ 9 -> (left_over n (d_todo (dstart n dirs)) <= 5 * Z.to_nat n)%nat.
Proof.
  intros B. cbn [dstart d_todo]. unfold left_over. replace (Z.to_nat n) with (List.length (ranks n)) by (unfold ranks; rewrite map_length, seq_length; reflexivity).
  assert (H : forall r, In r (ranks n) -> (List.length (debug_open n r) <= 5)%nat).
  { intros r I. apply ranks_in in I. destruct (Z_lt_le_dec 2048 n).
    - rewrite prog_deep by lia. destruct (r mod 2048 =? 0); cbn; lia.
    - rewrite prog_flat by lia. cbn. lia. }
  revert H. generalize (ranks n). intros l H. induction l as [|a l IH]; [cbn; lia|]. cbn [map List.length]. rewrite nsum_cons. pose proof (H a (or_introl eq_refl)).
  assert (nsum (map (fun r => List.length (debug_open n r)) l) <= 5 * List.length l)%nat by (apply IH; intros r I; apply H; right; exact I). lia.
Qed.
(** C70: whatever the order in which the ranks move and whatever directories exist, PCU_Debug_Open on n ranks never fails, can go on until every rank has returned, takes at most
    five moves per rank, and then every rank has opened its own file. *)
Theorem C70_debug_open : forall n dirs k s, 0 < n <= 10 ^ 9 -> In [] dirs -> dsteps n k (dstart n dirs) s ->
  ~ dfails n s /\ (~ dfinished n s -> exists s', dstep n s s') /\ (k <= 5 * Z.to_nat n)%nat /\
  (dfinished n s -> forall r, 0 <= r < n -> exists f, d_file s r = Some f /\ debug_file n r f).
Proof.
  intros n dirs k s Hn I0 St. assert (K : (k <= 5 * Z.to_nat n)%nat).
  { pose proof (steps_count _ _ _ _ St). pose proof (left_start n dirs ltac:(lia)). lia. }
  destruct (Z_lt_le_dec 2048 n) as [L|L].
  - assert (I : inv n s). { apply (steps_inv n (inv n)) with (k := k) (s := dstart n dirs); [intros a b; apply inv_step; lia|exact St|apply inv_start; [lia|exact I0]]. }
    split; [apply inv_nofail; [lia|exact I]|]. split; [apply inv_moves; [lia|exact I]|]. split; [exact K|]. intros F r H. destruct I as (_ & I1).
    pose proof (I1 r H) as S1. unfold stage in S1. rewrite (F r H) in S1.
    destruct S1 as [(a & b)|[(a & b & c)|[(a & b & c)|[(a & b & c)|[(a & b & c & d)|(_ & _ & _ & d)]]]]]; try discriminate a.
    exists (file1 r). split; [exact d|apply file1_ok; lia].
  - assert (I : flat n s).
    { apply (steps_inv n (flat n)) with (k := k) (s := dstart n dirs); [intros a b; apply flat_step; lia|exact St|]. split; [exact I0|]. intros r H. left. apply prog_flat; lia. }
    split; [|split; [apply flat_moves; [lia|exact I]|split; [exact K|]]].
    + intros (r & p & rest & H & E & _). destruct I as (_ & I1). destruct (I1 r H) as [X|(X & _)]; rewrite E in X; discriminate X.
    + intros F r H. destruct I as (_ & I1). destruct (I1 r H) as [X|(_ & X)]; [rewrite (F r H) in X; discriminate X|]. exists (file0 r). split; [exact X|apply file0_ok; lia].
Qed.
Print Assumptions C70_debug_open.

Lemma debug_comps n r f : debug_file n r f -> exists t, prints_as r t /\
  (n <= 2048 /\ comps f = [D0 ++ t ++ txt ".txt"] \/ 2048 < n /\ exists u, prints_as (r / 2048) u /\ comps f = [D0; u; D0 ++ t ++ txt ".txt"]).
Proof.
  intros (t & T & [(L & ->)|(L & u & U & ->)]); exists t; (split; [exact T|]).
  - left. split; [exact L|]. apply comps_file, (digits_plain r), T.
  - right. split; [exact L|]. exists u. split; [exact U|]. apply comps_deep; [destruct U as (_ & _ & N & _); exact N|apply (digits_plain (r / 2048)), U|apply (digits_plain r), T].
Qed.
(** C70: two ranks never have the same file, and no directory holds the files of more than 2048 ranks *)
Theorem C70_own_file : forall n r r' f, debug_file n r f -> debug_file n r' f -> r = r'.
Proof.
  intros n r r' f H H'. destruct (debug_comps _ _ _ H) as (t & T & C). destruct (debug_comps _ _ _ H') as (t' & T' & C').
  assert (E : D0 ++ t ++ txt ".txt" = D0 ++ t' ++ txt ".txt").
  { destruct C as [(L & C)|(L & u & _ & C)], C' as [(L' & C')|(L' & u' & _ & C')]; try lia; rewrite C in C'; apply (f_equal (fun l => last l [])) in C'; exact C'. }
  apply app_inv_head in E. apply app_inv_tail in E. subst t'. exact (prints_unique _ _ T _ T').
Qed.
Print Assumptions C70_own_file.
Theorem C70_fanout : forall n d rs, NoDup rs -> (forall r, In r rs -> 0 <= r < n /\ exists f, debug_file n r f /\ parent f = d) -> (List.length rs <= 2048)%nat.
Proof.
  intros n d rs N H. destruct rs as [|r0 rs0]; [cbn; lia|]. set (rs := r0 :: rs0) in *.
  assert (X : exists b, forall r, In r rs -> b <= r < b + 2048).
  { destruct (Z_lt_le_dec 2048 n) as [L|L].
    - exists (r0 / 2048 * 2048). intros r I.
      assert (P : forall x, In x rs -> exists u, prints_as (x / 2048) u /\ d = [D0; u]).
      { intros x Ix. destruct (H x Ix) as (_ & f & F & P). destruct (debug_comps _ _ _ F) as (t & _ & [(L' & _)|(_ & u & U & C)]); [lia|]. exists u. split; [exact U|].
        unfold parent in P. rewrite C in P. symmetry. exact P. }
      destruct (P r I) as (u & U & E). destruct (P r0 (or_introl eq_refl)) as (u0 & U0 & E0). rewrite E in E0. injection E0 as E0. subst u0.
      pose proof (prints_unique _ _ U _ U0) as Q. pose proof (Z.div_mod r 2048 ltac:(lia)). pose proof (Z.mod_pos_bound r 2048 ltac:(lia)). lia.
    - exists 0. intros r I. destruct (H r I) as (R & _). lia. }
  destruct X as (b & X). clearbody rs. clear H r0 rs0. rewrite <- (map_length (fun r => Z.to_nat (r - b)) rs).
  replace 2048%nat with (List.length (seq 0 2048)) by apply seq_length.
  apply NoDup_incl_length.
  - clear -N X. induction rs as [|a l IH]; [constructor|]. inversion N as [|a0 l0 Na Nl]; subst. cbn [map]. constructor.
    + intros I. apply in_map_iff in I. destruct I as (c & E & I). pose proof (X a (or_introl eq_refl)). pose proof (X c (or_intror I)). assert (c = a) by lia. subst c. contradiction.
    + apply IH; [exact Nl|]. intros r I. apply X. right. exact I.
  - intros k I. apply in_map_iff in I. destruct I as (r & E & I). pose proof (X r I). apply in_seq. lia.
Qed.
Print Assumptions C70_fanout.

(** * Beyond the limits *)
(** the buffer of pcu_open_parallel has no room for the dot: a rank of ten digits loses the last letter of the extension *)
Theorem C70_ten_digits_refuted : forall n, 2048 < n -> exists f, file_of n 1000000000 = Some f /\ ~ debug_file n 1000000000 f.
Proof.
  intros n Hn. unfold file_of, debug_open, fanout. destruct (Z.ltb_spec 2048 n); [|lia]. eexists. split; [vm_compute; reflexivity|].
  intros (t & T & [(L & _)|(_ & u & U & E)]); [lia|].
  assert (C : comps (txt "debug/" ++ u ++ txt "/debug" ++ t ++ txt ".txt") = [D0; u; D0 ++ t ++ txt ".txt"]).
  { apply comps_deep; [destruct U as (_ & _ & N & _); exact N|apply (digits_plain (1000000000 / 2048)), U|apply (digits_plain 1000000000), T]. }
  rewrite <- E in C. apply (f_equal (fun l => rev (last l []))) in C. change (last [D0; u; D0 ++ t ++ txt ".txt"] []) with (D0 ++ (t ++ txt ".txt")) in C.
  rewrite app_assoc, rev_app_distr in C. vm_compute in C. discriminate C.
Qed.
Print Assumptions C70_ten_digits_refuted.
(** after PCU_Switch_Comm to sub-groups the ranks of different groups have the same number, and PCU_Debug_Open gives both the same file *)
Theorem C70_switch_refuted : forall n r, 0 <= r < n -> n <= 10 ^ 9 -> forall w w' fs, w <> w' ->
  exists f s s', do_calls (pcu0 fs) [Init w (2 * n); Switch r n; DebugOpen] = Some s /\ do_calls (pcu0 fs) [Init w' (2 * n); Switch r n; DebugOpen] = Some s' /\
    g_file s = Some f /\ g_file s' = Some f.
Proof.
  intros n r Hr Hn w w' fs _. assert (X : exists f, file_of n r = Some f).
  { unfold file_of. destruct (Z_lt_le_dec 2048 n); [rewrite prog_deep by lia|rewrite prog_flat by lia; eexists; reflexivity].
    destruct (r mod 2048 =? 0); eexists; reflexivity. }
  destruct X as (f & E). exists f. unfold do_calls. cbn [foldM do_call pcu0 g_on g_file g_size g_rank obind]. rewrite E. cbn [obind]. do 2 eexists. split; [reflexivity|]. split; [reflexivity|]. split; reflexivity.
Qed.
Print Assumptions C70_switch_refuted.

(** * What is written *)
Definition prints (cs : list call) : list text := flat_map (fun c => match c with DebugPrint t => [t] | _ => [] end) cs.
Lemma teqb_refl f : teqb f f = true.
Proof. unfold teqb. destruct (list_eq_dec ascii_dec f f); congruence. Qed.
Lemma teqb_neq f g : g <> f -> teqb g f = false.
Proof. unfold teqb. destruct (list_eq_dec ascii_dec g f); congruence. Qed.
Lemma fput_same fs f c : fput fs f c f = c.
Proof. unfold fput. rewrite teqb_refl. reflexivity. Qed.
Lemma fput_other fs f c g : g <> f -> fput fs f c g = fs g.
Proof. intros H. unfold fput. rewrite teqb_neq by exact H. reflexivity. Qed.
Lemma run_open cs : forall s f, g_on s = true -> g_file s = Some f -> ~ In Free cs -> (forall r n, ~ In (Init r n) cs) ->
  exists s', do_calls s cs = Some s' /\ g_on s' = true /\ g_file s' = Some f /\ g_fs s' f = g_fs s f ++ prints cs /\ (forall g, g <> f -> g_fs s' g = g_fs s g).
Proof.
  induction cs as [|c cs IH]; intros s f On F NF NI.
  - exists s. rewrite app_nil_r. cbn. auto.
  - assert (NF' : ~ In Free cs) by (intros X; apply NF; right; exact X). assert (NI' : forall r n, ~ In (Init r n) cs) by (intros r n X; apply (NI r n); right; exact X).
    unfold do_calls in *. cbn [foldM]. destruct c as [r n| |r n| |t]; cbn [do_call].
    + exfalso. apply (NI r n). left. reflexivity.
    + exfalso. apply NF. left. reflexivity.
    + rewrite On. cbn [obind]. apply (IH (mkPcu true r n (g_file s) (g_fs s)) f); auto.
    + rewrite On, F. cbn [obind]. apply (IH s f); auto.
    + rewrite On, F. cbn [obind]. destruct (IH (mkPcu true (g_rank s) (g_size s) (Some f) (fput (g_fs s) f (g_fs s f ++ [t]))) f) as (s' & R & A & B & C & D); auto.
      exists s'. split; [exact R|]. split; [exact A|]. split; [exact B|]. cbn [g_fs] in C, D. rewrite fput_same in C. split.
      * rewrite C, <- app_assoc. reflexivity.
      * intros g G. rewrite (D g G). apply fput_other, G.
Qed.
Lemma run_closed cs : forall s, g_on s = true -> g_file s = None -> (forall c, In c cs -> (exists t, c = DebugPrint t) \/ exists r n, c = Switch r n) ->
  exists s', do_calls s cs = Some s' /\ g_on s' = true /\ g_file s' = None /\ g_fs s' = g_fs s.
Proof.
  induction cs as [|c cs IH]; intros s On F H; [exists s; cbn; auto|]. unfold do_calls in *. cbn [foldM].
  destruct (H c (or_introl eq_refl)) as [(t & ->)|(r & n & ->)]; cbn [do_call]; rewrite On.
  - rewrite F. cbn [obind]. apply IH; auto. intros c C. apply H. right. exact C.
  - cbn [obind]. destruct (IH (mkPcu true r n (g_file s) (g_fs s))) as (s' & R); auto. intros c C. apply H. right. exact C. exists s'. exact R.
Qed.
Lemma calls_app s a b : do_calls s (a ++ b) = (x <- do_calls s a ;; do_calls x b).
Proof. unfold do_calls. apply foldM_app. Qed.
(** C70: between PCU_Comm_Init and PCU_Comm_Free everything printed after the first PCU_Debug_Open is in the rank's own file, in order, whatever other calls, further
    PCU_Debug_Open and PCU_Switch_Comm included, come in between; what was printed before it is nowhere; no other file is touched. *)
Theorem C70_prints : forall fs r n before after, 0 <= r < n -> n <= 10 ^ 9 -> (forall c, In c before -> exists t, c = DebugPrint t) ->
  (forall c, In c after -> (exists t, c = DebugPrint t) \/ c = DebugOpen \/ exists r n, c = Switch r n) ->
  exists s f, do_calls (pcu0 fs) (Init r n :: before ++ DebugOpen :: after) = Some s /\ debug_file n r f /\ g_fs s f = prints after /\ forall g, g <> f -> g_fs s g = fs g.
Proof.
  intros fs r n before after Hr Hn HB HA. change (Init r n :: before ++ DebugOpen :: after) with ([Init r n] ++ before ++ [DebugOpen] ++ after). rewrite calls_app.
  change (do_calls (pcu0 fs) [Init r n]) with (Some (mkPcu true r n None fs)). cbn [obind]. rewrite calls_app.
  assert (X : do_calls (mkPcu true r n None fs) before = Some (mkPcu true r n None fs)).
  { clear -HB. unfold do_calls. induction before as [|c cs IH]; [reflexivity|]. cbn [foldM]. destruct (HB c (or_introl eq_refl)) as (t & ->). cbn [do_call g_on g_file obind].
    apply IH. intros c C. apply HB. right. exact C. }
  rewrite X. cbn [obind]. rewrite calls_app.
  assert (Y : exists f, file_of n r = Some f /\ debug_file n r f).
  { destruct (Z_lt_le_dec 2048 n).
    - exists (file1 r). split; [|apply file1_ok; lia]. unfold file_of. rewrite prog_deep by lia. destruct (r mod 2048 =? 0); reflexivity.
    - exists (file0 r). split; [|apply file0_ok; lia]. unfold file_of. rewrite prog_flat by lia. reflexivity. }
  destruct Y as (f & E & F). unfold do_calls at 1. cbn [foldM do_call g_on g_file g_size g_rank g_fs obind]. rewrite E. cbn [obind].
  destruct (run_open after (mkPcu true r n (Some f) (fput fs f [])) f) as (s' & R & _ & _ & C & D); auto.
  { intros I. destruct (HA _ I) as [(t & Q)|[Q|(a & b & Q)]]; discriminate. }
  { intros a b I. destruct (HA _ I) as [(t & Q)|[Q|(c & d & Q)]]; discriminate. }
  exists s', f. split; [exact R|]. split; [exact F|]. cbn [g_fs] in C, D. rewrite fput_same in C. split; [exact C|]. intros g G. rewrite (D g G). apply fput_other, G.
Qed.
Print Assumptions C70_prints.
(** a PCU call outside PCU_Comm_Init ... PCU_Comm_Free, or a nested PCU_Comm_Init, stops the program *)
Theorem C70_outside : forall fs c, (forall r n, c <> Init r n) -> do_calls (pcu0 fs) [c] = None.
Proof. intros fs c H. destruct c as [r n| |r n| |t]; try reflexivity. destruct (H r n). reflexivity. Qed.
Print Assumptions C70_outside.
Theorem C70_nested_init : forall s r n, g_on s = true -> do_call s (Init r n) = None.
Proof. intros s r n H. cbn. rewrite H. reflexivity. Qed.
Print Assumptions C70_nested_init.
(** a second session of the same rank empties the file of the first one *)
Theorem C70_second_session_refuted : forall fs r n t, 0 <= r < n -> n <= 10 ^ 9 ->
  exists s f, do_calls (pcu0 fs) [Init r n; DebugOpen; DebugPrint t; Free; Init r n; DebugOpen] = Some s /\ debug_file n r f /\ g_fs s f = [].
Proof.
  intros fs r n t Hr Hn. destruct (C70_prints fs r n [] [DebugPrint t] Hr Hn) as (s & f & R & F & C & _).
  { intros c []. }
  { intros c [<-|[]]. left. eauto. }
  assert (Y : file_of n r = Some f \/ exists f', file_of n r = Some f' /\ debug_file n r f').
  { right. destruct (Z_lt_le_dec 2048 n).
    - exists (file1 r). split; [|apply file1_ok; lia]. unfold file_of. rewrite prog_deep by lia. destruct (r mod 2048 =? 0); reflexivity.
    - exists (file0 r). split; [|apply file0_ok; lia]. unfold file_of. rewrite prog_flat by lia. reflexivity. }
  assert (Z : exists f', file_of n r = Some f' /\ debug_file n r f') by (destruct Y as [Y|Y]; eauto). destruct Z as (f' & E & F').
  unfold do_calls. cbn [foldM do_call pcu0 g_on g_file g_size g_rank g_fs obind]. rewrite E. cbn [obind g_on g_file g_size g_rank g_fs]. rewrite E. cbn [obind].
  eexists. exists f'. split; [reflexivity|]. split; [exact F'|]. cbn [g_fs]. apply fput_same.
Qed.
Print Assumptions C70_second_session_refuted.

(** * Examples *)
Example C70_name_example : file_of 3 2 = Some (txt "debug2.txt") /\ file_of 5000 4321 = Some (txt "debug/2/debug4321.txt").
Proof. split; vm_compute; reflexivity. Qed.
Example C70_spec_example : debug_file 5000 4321 (txt "debug/2/debug4321.txt").
Proof.
  exists (txt "4321"). split.
  - split; [reflexivity|]. split; [repeat (constructor; [vm_compute; split; discriminate|]); constructor|]. split; [discriminate|]. intros r E. discriminate E.
  - right. split; [reflexivity|]. exists (txt "2"). split; [|reflexivity]. split; [reflexivity|]. split; [repeat (constructor; [vm_compute; split; discriminate|]); constructor|].
    split; [discriminate|]. intros r E. discriminate E.
Qed.
(** a complete run of two ranks *)
Example C70_run_example : exists s, dsteps 2 2 (dstart 2 [[]]) s /\ dfinished 2 s /\ d_file s 1 = Some (txt "debug1.txt").
Proof.
  eexists. split; [|split].
  - eapply dss_step; [eapply dss_step; [apply dss_refl|]|].
    + eapply ds_open with (r := 1); [lia|vm_compute; reflexivity|left; reflexivity].
    + eapply ds_open with (r := 0); [lia|vm_compute; reflexivity|left; reflexivity].
  - intros r H. assert (X : r = 0 \/ r = 1) by lia. destruct X as [-> | ->]; reflexivity.
  - reflexivity.
Qed.
