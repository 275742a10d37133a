(** C69: messages, verbosity, error flag, debug files. *)
From Verif Require Import Base MessageModel.
From Coq Require Import Ascii String.
Local Open Scope list_scope.
Local Open Scope nat_scope.

(** ** Specification *)
(** a line as it should appear *)
Definition line (prefix : text) (x : fmt) : text := prefix ++ " "%char :: prints x.
(** the longest format that the code takes: the prefix, a blank and the terminating zero take the rest of 1024 characters *)
Definition fits (c : call) : Prop :=
  match c with
  | Status x | StatusAt _ x => List.length (format_chars x) <= 1016
  | Warning x => List.length (format_chars x) <= 1006
  | Error x => List.length (format_chars x) <= 1008
  | _ => True
  end.
Definition opens (c : call) : Prop := match c with DebugOpen _ _ _ => True | _ => False end.
(** the verbosity after the calls, from [v] *)
Fixpoint verbosity (v : Z) (cs : list call) : Z := match cs with [] => v | SetVerbosity v' :: r => verbosity v' r | _ :: r => verbosity v r end.
(** the messages of a sequence of calls that starts with verbosity [v]: status messages and warnings, errors *)
Fixpoint notices (v : Z) (cs : list call) : list text :=
  match cs with
  | [] => []
  | SetVerbosity v' :: r => notices v' r
  | Status x :: r => line (list_ascii_of_string "ENGPAR") x :: notices v r
  | StatusAt k x :: r => if (k <=? v)%Z then line (list_ascii_of_string "ENGPAR") x :: notices v r else notices v r
  | Warning x :: r => line (list_ascii_of_string "[WARNING] ENGPAR") x :: notices v r
  | _ :: r => notices v r
  end.
Fixpoint errors (cs : list call) : list text :=
  match cs with
  | [] => []
  | Error x :: r => line (list_ascii_of_string "[ERROR] ENGPAR") x :: errors r
  | _ :: r => errors r
  end.
(** what goes to the debug file after it was opened, in the order of the calls: status messages and warnings, and the errors as long as [e] says so; EnGPar_Debug_Close sends the errors back to the terminal if [back] *)
Fixpoint recorded (e back : bool) (v : Z) (cs : list call) : list text :=
  match cs with
  | [] => []
  | SetVerbosity v' :: r => recorded e back v' r
  | Status x :: r => line (list_ascii_of_string "ENGPAR") x :: recorded e back v r
  | StatusAt k x :: r => if (k <=? v)%Z then line (list_ascii_of_string "ENGPAR") x :: recorded e back v r else recorded e back v r
  | Warning x :: r => line (list_ascii_of_string "[WARNING] ENGPAR") x :: recorded e back v r
  | Error x :: r => if e then line (list_ascii_of_string "[ERROR] ENGPAR") x :: recorded e back v r else recorded e back v r
  | DebugClose :: r => recorded (e && negb back) back v r
  | _ :: r => recorded e back v r
  end.
Fixpoint shown (e back : bool) (cs : list call) : list text :=
  match cs with
  | [] => []
  | Error x :: r => if e then shown e back r else line (list_ascii_of_string "[ERROR] ENGPAR") x :: shown e back r
  | DebugClose :: r => shown (e && negb back) back r
  | _ :: r => shown e back r
  end.
(** call c, made after the calls h, reports an error: an error message, or debug files that cannot be opened *)
Definition reports (h : list call) (c : call) : Prop :=
  match c with Error _ => True | DebugOpen o e ok => ok = false /\ o || e = true /\ (0 <= verbosity 0 h)%Z | _ => False end.
(** the error flag that EnGPar_Hit_Error should return after the calls h: an error was reported since the last EnGPar_Start_Test *)
Definition error_since_start (h : list call) : Prop := exists h1 c h2, h = h1 ++ c :: h2 /\ reports h1 c /\ ~ In StartTest h2.

(** ** Proofs *)
Lemma len_prefix : List.length p_status = 6 /\ List.length p_warning = 16 /\ List.length p_error = 14. Proof. repeat split. Qed.
Lemma fitting n k : n <= k -> (k <=? buffer_size) = true -> (n <=? buffer_size) = true.
Proof. intros H E. apply Nat.leb_le in E. apply Nat.leb_le. exact (Nat.le_trans _ _ _ H E). Qed.
Lemma print_fit s f p x n : List.length (format_chars x) <= n -> (List.length p + 1 + n + 1 <=? buffer_size) = true -> print s f p x = put s f (line p x).
Proof. intros H E. unfold print. rewrite (fitting (List.length p + 1 + List.length (format_chars x) + 1) (List.length p + 1 + n + 1) ltac:(lia) E). reflexivity. Qed.
Lemma print_over s f p x n : List.length (format_chars x) > n -> (List.length p + 1 + S n + 1 <=? buffer_size) = false -> print s f p x = None.
Proof. intros H E. unfold print. apply Nat.leb_gt in E. assert (X : (List.length p + 1 + List.length (format_chars x) + 1 <=? buffer_size) = false) by (apply Nat.leb_gt; lia). now rewrite X. Qed.

Section Route.
Variable self : Z.
(** the state in which stdout is the first object bound to a, stderr the object [f] with ferr bound to the terminal *)
Definition st (a : sink) (f : file) (oo oe : option file) (v : Z) (b : bool) (wo we wd : list text) : ms := mkMS FOut f oo oe a TermErr v b wo we wd.

Lemma do_calls_app s h1 h2 : do_calls self s (h1 ++ h2) = ('(s1, a) <- do_calls self s h1 ;; '(s2, b) <- do_calls self s1 h2 ;; Some (s2, a ++ b)).
Proof.
  revert s. induction h1 as [|c h IH]; intros s.
  - cbn. destruct (do_calls self s h2) as [[s2 b]|]; reflexivity.
  - cbn [app do_calls]. destruct (do_call self s c) as [[s1 a]|]; cbn [obind]; [|reflexivity]. rewrite IH. destruct (do_calls self s1 h) as [[s2 b]|]; cbn [obind]; [|reflexivity]. destruct (do_calls self s2 h2) as [[s3 d]|]; cbn [obind]; [|reflexivity]. now rewrite app_assoc.
Qed.

(** the flag *)
Lemma put_flag s f t s' : put s f t = Some s' -> m_flag s' = m_flag s /\ m_verb s' = m_verb s.
Proof. unfold put. destruct (match f with FOut => m_fout s | FErr => m_ferr s end); intros H; inversion H; subst; auto. Qed.
Lemma print_flag s f p x s' : print s f p x = Some s' -> m_flag s' = m_flag s /\ m_verb s' = m_verb s.
Proof. unfold print. destruct (_ <=? _); [apply put_flag|discriminate]. Qed.
Lemma error_flag s x s' : error s x = Some s' -> m_flag s' = true /\ m_verb s' = m_verb s.
Proof. unfold error. intros H. apply print_flag in H. exact H. Qed.
Lemma freopen_flag s f ok s' r : freopen s f ok = Some (s', r) -> m_flag s' = m_flag s /\ m_verb s' = m_verb s /\ (r = if ok then Some f else None).
Proof. unfold freopen. destruct f; [destruct (m_fout s)|destruct (m_ferr s)]; intros H; inversion H; subst; auto. Qed.
Lemma open_flag s o e ok s' : debug_open self s o e ok = Some s' -> m_verb s' = m_verb s /\ m_flag s' = (if (0 <=? m_verb s)%Z && (o || e) && negb ok then true else m_flag s).
Proof.
  unfold debug_open, check_verbosity. destruct (0 <=? m_verb s)%Z eqn:V; [|intros H; inversion H; subst; auto]. intros H.
  destruct (if Z.eqb self 0 then status s (literal t_opening) else Some s) as [s1|] eqn:E1; [|discriminate]. cbn [obind] in H.
  assert (F1 : m_flag s1 = m_flag s /\ m_verb s1 = m_verb s). { destruct (Z.eqb self 0); [apply (print_flag _ _ _ _ _ E1)|inversion E1; auto]. } destruct F1 as (F1 & V1).
  destruct (o || e) eqn:OE; [|inversion H; subst; cbn [andb]; auto].
  destruct (freopen (save_out s1) (m_stdout (save_out s1)) ok) as [[s3 r]|] eqn:E3; [|discriminate]. cbn [obind] in H. apply freopen_flag in E3 as (F3 & V3 & ->). cbn [save_out m_flag m_verb] in F3, V3.
  destruct ok; cbn [andb negb].
  - destruct e; inversion H; subst; cbn [set_err save_err set_out m_flag m_verb]; split; congruence.
  - apply error_flag in H as (F & V'). cbn [set_out m_verb] in V'. split; [congruence|exact F].
Qed.
Lemma verb_call s c s' a : do_call self s c = Some (s', a) -> m_verb s' = verbosity (m_verb s) [c].
Proof.
  destruct c; cbn [do_call verbosity]; intros H.
  - inversion H; reflexivity.
  - destruct (status s x) as [s1|] eqn:E; inversion H; subst. apply (print_flag _ _ _ _ _ E).
  - unfold status_at in H. destruct (check_verbosity s v); [|inversion H; reflexivity]. destruct (print s (m_stdout s) p_status x) as [s1|] eqn:E; inversion H; subst. apply (print_flag _ _ _ _ _ E).
  - destruct (warning s x) as [s1|] eqn:E; inversion H; subst. apply (print_flag _ _ _ _ _ E).
  - destruct (error s x) as [s1|] eqn:E; inversion H; subst. apply (error_flag _ _ _ E).
  - inversion H; reflexivity.
  - inversion H; reflexivity.
  - destruct (debug_open self s o e ok) as [s1|] eqn:E; inversion H; subst. apply (open_flag _ _ _ _ _ E).
  - inversion H; subst. unfold debug_close. destruct (m_old_stdout s); cbn [set_out m_old_stderr]; destruct (m_old_stderr s); reflexivity.
Qed.
Lemma verbosity_app v h1 h2 : verbosity v (h1 ++ h2) = verbosity (verbosity v h1) h2.
Proof. revert v. induction h1 as [|c h IH]; intros v; [reflexivity|]. destruct c; cbn [app verbosity]; auto. Qed.
Lemma verb_calls h : forall s s' a, do_calls self s h = Some (s', a) -> m_verb s' = verbosity (m_verb s) h.
Proof.
  induction h as [|c h IH]; intros s s' a H; [inversion H; reflexivity|]. cbn [do_calls] in H. destruct (do_call self s c) as [[s1 a1]|] eqn:E; [|discriminate]. cbn [obind] in H. destruct (do_calls self s1 h) as [[s2 b]|] eqn:E2; inversion H; subst.
  rewrite (IH _ _ _ E2), (verb_call _ _ _ _ E). change (c :: h) with ([c] ++ h). now rewrite verbosity_app.
Qed.
Lemma flag_call s c s' a h : do_call self s c = Some (s', a) -> m_verb s = verbosity 0 h -> (m_flag s' = true <-> reports h c \/ (c <> StartTest /\ m_flag s = true)).
Proof.
  intros H V. destruct c; cbn [do_call reports] in *.
  - inversion H; subst; cbn. intuition discriminate.
  - destruct (status s x) as [s1|] eqn:E; inversion H; subst. apply print_flag in E as (-> & _). intuition discriminate.
  - unfold status_at in H. destruct (check_verbosity s v); [|inversion H; subst; intuition discriminate]. destruct (print s (m_stdout s) p_status x) as [s1|] eqn:E; inversion H; subst. apply print_flag in E as (-> & _). intuition discriminate.
  - destruct (warning s x) as [s1|] eqn:E; inversion H; subst. apply print_flag in E as (-> & _). intuition discriminate.
  - destruct (error s x) as [s1|] eqn:E; inversion H; subst. apply error_flag in E as (-> & _). intuition.
  - inversion H; subst; cbn. intuition discriminate.
  - inversion H; subst. intuition discriminate.
  - destruct (debug_open self s o e ok) as [s1|] eqn:E; inversion H; subst. apply open_flag in E as (_ & ->). rewrite V. destruct ok, (o || e), (Z.leb_spec 0 (verbosity 0 h)); cbn [andb negb]; intuition (try discriminate; try lia).
  - inversion H; subst. unfold debug_close. destruct (m_old_stdout s); cbn [set_out m_old_stderr]; destruct (m_old_stderr s); cbn; intuition discriminate.
Qed.
Lemma since_snoc h c : error_since_start (h ++ [c]) <-> reports h c \/ (c <> StartTest /\ error_since_start h).
Proof.
  split.
  - intros (h1 & d & h2 & E & R & N). destruct h2 as [|y h2] using rev_ind.
    + apply app_inj_tail in E as (-> & ->). auto.
    + clear IHh2. right. rewrite app_comm_cons, app_assoc in E. apply app_inj_tail in E as (-> & ->). split; [intros ->; apply N, in_app_iff; right; left; auto|]. exists h1, d, h2. split; auto. split; auto. intros X. apply N, in_app_iff. auto.
  - intros [R|(N & h1 & d & h2 & -> & R & N2)]; [exists h, c, []; auto|]. exists h1, d, (h2 ++ [c]). split; [rewrite <- app_assoc; reflexivity|]. split; auto. intros X. apply in_app_iff in X as [X|[X|[]]]; auto.
Qed.
Lemma flag_calls h : forall s a, do_calls self ms0 h = Some (s, a) -> (m_flag s = true <-> error_since_start h).
Proof.
  induction h as [|c h IH] using rev_ind; intros s a H.
  - inversion H; subst. cbn. split; [discriminate|]. intros (h1 & d & h2 & E & _). destruct h1; discriminate.
  - rewrite do_calls_app in H. destruct (do_calls self ms0 h) as [[s1 a1]|] eqn:E1; [|discriminate]. cbn [obind do_calls] in H. destruct (do_call self s1 c) as [[s2 a2]|] eqn:E2; [|discriminate]. cbn [obind] in H. inversion H; subst.
    rewrite since_snoc, (flag_call _ _ _ _ h E2), (IH _ _ eq_refl); [tauto|]. rewrite (verb_calls _ _ _ _ E1). reflexivity.
Qed.

(** where messages go *)
Lemma run_plain h : forall v b wo we, (forall c, In c h -> fits c /\ ~ opens c) ->
  exists b' a, do_calls self (st TermOut FErr None None v b wo we []) h = Some (st TermOut FErr None None (verbosity v h) b' (wo ++ notices v h) (we ++ errors h) [], a).
Proof.
  induction h as [|c h IH]; intros v b wo we HF; [exists b, []; cbn; now rewrite !app_nil_r|]. destruct (HF c (or_introl eq_refl)) as (F & O). assert (HF' : forall c, In c h -> fits c /\ ~ opens c) by (intros; apply HF; right; auto).
  destruct c as [k|x|k x|x|x| | |o e ok|]; cbn [do_calls do_call verbosity notices errors].
  - destruct (IH k b wo we HF') as (b' & a & E). exists b', a. cbn [obind]. change (set_verbosity _ k) with (st TermOut FErr None None k b wo we []). rewrite E. reflexivity.
  - unfold status. rewrite (print_fit _ _ p_status _ 1016 F eq_refl). destruct (IH v b (wo ++ [line p_status x]) we HF') as (b' & a & E). exists b', a. cbn [obind put m_fout st m_stdout]. unfold st in *. cbn in *. rewrite E, <- app_assoc. reflexivity.
  - unfold status_at, check_verbosity. cbn [m_verb st]. destruct (k <=? v)%Z.
    + rewrite (print_fit _ _ p_status _ 1016 F eq_refl). destruct (IH v b (wo ++ [line p_status x]) we HF') as (b' & a & E). exists b', a. cbn [obind put m_fout st m_stdout]. unfold st in *. cbn in *. rewrite E, <- app_assoc. reflexivity.
    + destruct (IH v b wo we HF') as (b' & a & E). exists b', a. cbn [obind]. rewrite E. reflexivity.
  - unfold warning. rewrite (print_fit _ _ p_warning _ 1006 F eq_refl). destruct (IH v b (wo ++ [line p_warning x]) we HF') as (b' & a & E). exists b', a. cbn [obind put m_fout st m_stdout]. unfold st in *. cbn in *. rewrite E, <- app_assoc. reflexivity.
  - unfold error. rewrite (print_fit _ _ p_error _ 1008 F eq_refl). destruct (IH v true wo (we ++ [line p_error x]) HF') as (b' & a & E). exists b', a. cbn [obind put m_fout st m_stderr set_flag]. unfold st in *. cbn in *. rewrite E, <- app_assoc. reflexivity.
  - destruct (IH v false wo we HF') as (b' & a & E). exists b', a. cbn [obind]. change (set_flag _ false) with (st TermOut FErr None None v false wo we []). rewrite E. reflexivity.
  - destruct (IH v b wo we HF') as (b' & a & E). exists b', ([b] ++ a). cbn [obind m_flag st]. rewrite E. reflexivity.
  - destruct O. exact I.
  - destruct (IH v b wo we HF') as (b' & a & E). exists b', a. cbn [obind]. change (debug_close _) with (st TermOut FErr None None v b wo we []). rewrite E. reflexivity.
Qed.
Definition errs (e : bool) : file := if e then FOut else FErr.
Lemma In_dec_close (h : list call) : In DebugClose h \/ ~ In DebugClose h.
Proof. induction h as [|c h [IH|IH]]; [right; intros []|left; right; auto|]. destruct c; try (right; intros [X|X]; [discriminate|auto]). left; left; reflexivity. Qed.
Definition ties (e : bool) (oe : option file) (back : bool) : Prop := match oe with Some FErr => back = true | None => e = false | Some FOut => e = true /\ back = false end.
Lemma close_debug e oe back v b wo we wd : ties e oe back ->
  debug_close (st DebugFile (errs e) (Some FOut) oe v b wo we wd) = st DebugFile (errs (e && negb back)) (Some FOut) oe v b wo we wd /\ ties (e && negb back) oe back.
Proof. destruct oe as [[|]|]; cbn [ties]; [intros (-> & ->); split; [reflexivity|split; reflexivity]|intros ->; rewrite andb_false_r; split; reflexivity|intros ->; split; reflexivity]. Qed.
Lemma run_debug h : forall e oe back v b wo we wd, ties e oe back -> (forall c, In c h -> fits c /\ ~ opens c) ->
  exists b' a e', do_calls self (st DebugFile (errs e) (Some FOut) oe v b wo we wd) h = Some (st DebugFile (errs e') (Some FOut) oe (verbosity v h) b' wo (we ++ shown e back h) (wd ++ recorded e back v h), a) /\
    ties e' oe back /\ (~ In DebugClose h -> e' = e) /\ (In DebugClose h -> e' = e && negb back).
Proof.
  induction h as [|c h IH]; intros e oe back v b wo we wd HT HF; [exists b, [], e; cbn [do_calls verbosity shown recorded]; rewrite !app_nil_r; split; [reflexivity|]; split; [exact HT|]; split; [auto|intros []]|].
  destruct (HF c (or_introl eq_refl)) as (F & O). assert (HF' : forall c, In c h -> fits c /\ ~ opens c) by (intros; apply HF; right; auto).
  assert (IN : c <> DebugClose -> (~ In DebugClose (c :: h) -> ~ In DebugClose h) /\ (In DebugClose (c :: h) -> In DebugClose h)) by (intros N; cbn [In]; tauto).
  destruct c as [k|x|k x|x|x| | |o e0 ok|]; cbn [do_calls do_call verbosity shown recorded].
  1: destruct (IH e oe back k b wo we wd HT HF') as (b' & a & e' & E & T' & N1 & N2).
  2: unfold status; rewrite (print_fit _ _ p_status _ 1016 F eq_refl); destruct (IH e oe back v b wo we (wd ++ [line p_status x]) HT HF') as (b' & a & e' & E & T' & N1 & N2).
  3: unfold status_at, check_verbosity; cbn [m_verb st]; destruct (k <=? v)%Z; [rewrite (print_fit _ _ p_status _ 1016 F eq_refl); destruct (IH e oe back v b wo we (wd ++ [line p_status x]) HT HF') as (b' & a & e' & E & T' & N1 & N2)
     |destruct (IH e oe back v b wo we wd HT HF') as (b' & a & e' & E & T' & N1 & N2)].
  5: unfold warning; rewrite (print_fit _ _ p_warning _ 1006 F eq_refl); destruct (IH e oe back v b wo we (wd ++ [line p_warning x]) HT HF') as (b' & a & e' & E & T' & N1 & N2).
  6: unfold error; rewrite (print_fit _ _ p_error _ 1008 F eq_refl); destruct e; [destruct (IH true oe back v true wo we (wd ++ [line p_error x]) HT HF') as (b' & a & e' & E & T' & N1 & N2)
     |destruct (IH false oe back v true wo (we ++ [line p_error x]) wd HT HF') as (b' & a & e' & E & T' & N1 & N2)].
  8: destruct (IH e oe back v false wo we wd HT HF') as (b' & a & e' & E & T' & N1 & N2).
  9: destruct (IH e oe back v b wo we wd HT HF') as (b' & a & e' & E & T' & N1 & N2).
  10: destruct O; exact I.
  10: destruct (close_debug e oe back v b wo we wd HT) as (EC & TC); destruct (IH _ oe back v b wo we wd TC HF') as (b' & a & e' & E & T' & N1 & N2).
  9: exists b', ([b] ++ a), e'; cbn [obind m_flag st]; rewrite E; (split; [reflexivity|]; split; [exact T'|]; split; intros X; [apply N1|apply N2]; now apply IN).
  9: exists b', a, e'; cbn [obind]; rewrite EC, E; (split; [reflexivity|]; split; [exact T'|]; split; intros X; [exfalso; apply X; left; reflexivity|]);
     destruct (In_dec_close h) as [Y|Y]; [rewrite (N2 Y); destruct e, back; reflexivity|now apply N1].
  all: exists b', a, e'; cbn [obind]; unfold set_verbosity, set_flag, st, errs in *; cbn in *; rewrite E, <- ?app_assoc; (split; [reflexivity|]; split; [exact T'|]; split; intros X; [apply N1|apply N2]; apply IN; auto; discriminate).
Qed.
End Route.

(** ** C69 *)
(** *** Without debug files every call is defined; the status messages whose verbosity is not above the one set, and the warnings, are on standard output, the errors on standard error, each once and in order *)
Theorem C69_messages : forall self h, (forall c, In c h -> fits c /\ ~ opens c) ->
  exists s a, do_calls self ms0 h = Some (s, a) /\ w_out s = notices 0 h /\ w_err s = errors h /\ w_debug s = [].
Proof. intros self h H. destruct (run_plain self h 0 false [] [] H) as (b' & a & E). eexists. exists a. split; [exact E|]. auto. Qed.
Print Assumptions C69_messages.

(** *** EnGPar_Hit_Error answers, at every point of every sequence of calls, whether an error was reported since the last EnGPar_Start_Test *)
Theorem C69_hit_error : forall self h s a, do_calls self ms0 (h ++ [HitError]) = Some (s, a) -> exists a' b, a = a' ++ [b] /\ (b = true <-> error_since_start h).
Proof.
  intros self h s a H. rewrite do_calls_app in H. destruct (do_calls self ms0 h) as [[s1 a1]|] eqn:E; [|discriminate]. cbn in H. inversion H; subst. exists a1, (m_flag s). split; auto. eapply flag_calls; eauto.
Qed.
Print Assumptions C69_hit_error.

(** *** a longer format overruns the buffer *)
Theorem C69_long_format_refuted : forall self s c, ~ fits c -> match c with StatusAt v _ => (v <= m_verb s)%Z | _ => True end -> do_call self s c = None.
Proof.
  intros self s c F V. destruct c; cbn [fits do_call] in *; try tauto.
  - unfold status. rewrite (print_over _ _ p_status x 1016 ltac:(lia) eq_refl). reflexivity.
  - unfold status_at, check_verbosity. apply Z.leb_le in V. rewrite V, (print_over _ _ p_status x 1016 ltac:(lia) eq_refl). reflexivity.
  - unfold warning. rewrite (print_over _ _ p_warning x 1006 ltac:(lia) eq_refl). reflexivity.
  - unfold error. rewrite (print_over _ _ p_error x 1008 ltac:(lia) eq_refl). reflexivity.
Qed.
Print Assumptions C69_long_format_refuted.

(** *** Debug files.  After EnGPar_Debug_Open, which announces it on rank 0, the status messages and warnings go to the debug file, with mode "e" the errors too, in one sequence.
    EnGPar_Debug_Close brings the errors back to the terminal, but not the status messages and warnings: freopen has changed the object that stdout points to, and restoring the pointer does not undo that. *)
Definition announcement (self : Z) : list text := if Z.eqb self 0 then [line (list_ascii_of_string "ENGPAR") (literal t_opening)] else [].
Lemma open_first self o e v b wo we : (0 <= v)%Z -> o || e = true ->
  debug_open self (st TermOut FErr None None v b wo we []) o e true = Some (st DebugFile (errs e) (Some FOut) (if e then Some FErr else None) v b (wo ++ announcement self) we []).
Proof.
  intros V OE. unfold debug_open, check_verbosity, announcement. cbn [m_verb st]. apply Z.leb_le in V. rewrite V, OE. destruct (Z.eqb self 0).
  - unfold status. rewrite (print_fit _ _ p_status (literal t_opening) 1016 ltac:(apply Nat.leb_le; reflexivity) eq_refl). destruct e; reflexivity.
  - rewrite app_nil_r. destruct e; reflexivity.
Qed.
Theorem C69_debug_files : forall self h1 o e h2, (forall c, In c (h1 ++ h2) -> fits c /\ ~ opens c) -> (0 <= verbosity 0 h1)%Z -> o || e = true ->
  exists s a, do_calls self ms0 (h1 ++ DebugOpen o e true :: h2) = Some (s, a) /\
  w_out s = notices 0 h1 ++ announcement self /\ w_err s = errors h1 ++ shown e true h2 /\ w_debug s = recorded e true (verbosity 0 h1) h2.
Proof.
  intros self h1 o e h2 HF V OE. destruct (run_plain self h1 0 false [] [] ltac:(intros c Hc; apply HF, in_app_iff; auto)) as (b1 & a1 & E1). cbn [app] in E1.
  destruct (run_debug self h2 e (if e then Some FErr else None) true (verbosity 0 h1) b1 (notices 0 h1 ++ announcement self) (errors h1) []) as (b2 & a2 & e' & E2 & _); [destruct e; reflexivity|intros c Hc; apply HF, in_app_iff; auto|].
  eexists. eexists. split; [|]. rewrite do_calls_app. change ms0 with (st TermOut FErr None None 0 false [] [] []). rewrite E1. cbn [obind do_calls do_call]. rewrite (open_first self o e _ _ _ _ V OE). cbn [obind]. rewrite E2. cbn [obind]. reflexivity. auto.
Qed.
Print Assumptions C69_debug_files.
Lemma recorded_app e v h1 h2 : recorded e true v (h1 ++ DebugClose :: h2) = recorded e true v h1 ++ notices (verbosity v h1) h2.
Proof.
  assert (N : forall h v, recorded false true v h = notices v h). { induction h as [|c h IH]; intros w; [reflexivity|]. destruct c; cbn [recorded notices andb]; auto; rewrite ?IH; auto. }
  revert e v. induction h1 as [|c h IH]; intros e v; [cbn [app recorded verbosity]; rewrite andb_false_r; apply N|]. destruct c; cbn [app recorded verbosity]; rewrite ?IH; auto; [destruct (_ <=? _)%Z; rewrite ?IH; auto|destruct e; rewrite ?IH; auto].
Qed.
(** *** what is printed after EnGPar_Debug_Close still goes to the debug file, and nothing of it to standard output *)
Theorem C69_close_refuted : forall self h1 o e h2 h3, (forall c, In c (h1 ++ h2 ++ DebugClose :: h3) -> fits c /\ ~ opens c) -> (0 <= verbosity 0 h1)%Z -> o || e = true ->
  exists s a, do_calls self ms0 (h1 ++ DebugOpen o e true :: h2 ++ DebugClose :: h3) = Some (s, a) /\
  w_out s = notices 0 h1 ++ announcement self /\ exists d, w_debug s = d ++ notices (verbosity (verbosity 0 h1) h2) h3.
Proof.
  intros self h1 o e h2 h3 HF V OE. destruct (C69_debug_files self h1 o e (h2 ++ DebugClose :: h3) HF V OE) as (s & a & E & W & _ & D). exists s, a. split; auto. split; auto. rewrite recorded_app in D. eauto.
Qed.
Print Assumptions C69_close_refuted.
(** *** when the debug file cannot be opened the error is reported, but stdout has been closed: the next status message or warning uses a closed stream *)
Theorem C69_open_failure_refuted : forall self h1 o e c, (forall c, In c h1 -> fits c /\ ~ opens c) -> (0 <= verbosity 0 h1)%Z -> o || e = true -> (exists x, c = Status x \/ c = Warning x) ->
  do_calls self ms0 (h1 ++ [DebugOpen o e false]) <> None /\ do_calls self ms0 (h1 ++ [DebugOpen o e false; c]) = None.
Proof.
  intros self h1 o e c HF V OE (x & HC). destruct (run_plain self h1 0 false [] [] HF) as (b1 & a1 & E1). rewrite !do_calls_app. change ms0 with (st TermOut FErr None None 0 false [] [] []). rewrite E1. cbn [obind do_calls do_call].
  assert (EO : debug_open self (st TermOut FErr None None (verbosity 0 h1) b1 ([] ++ notices 0 h1) ([] ++ errors h1) []) o e false = Some (st Closed FErr (Some FOut) None (verbosity 0 h1) true (notices 0 h1 ++ announcement self) (errors h1 ++ [line p_error (literal t_failed)]) [])).
  { unfold debug_open, check_verbosity, announcement. cbn [m_verb st]. apply Z.leb_le in V. rewrite V, OE. destruct (Z.eqb self 0); [unfold status; rewrite (print_fit _ _ p_status (literal t_opening) 1016 ltac:(apply Nat.leb_le; reflexivity) eq_refl)|]; unfold put, freopen, save_out, st; cbn [m_stdout m_fout m_stderr m_old_stdout m_old_stderr m_ferr m_verb m_flag w_out w_err w_debug obind app]; unfold set_out; cbn [m_stdout m_fout m_stderr m_old_stdout m_old_stderr m_ferr m_verb m_flag w_out w_err w_debug obind];
      unfold error; rewrite (print_fit _ _ p_error (literal t_failed) 1008 ltac:(apply Nat.leb_le; reflexivity) eq_refl); rewrite ?app_nil_r; reflexivity. }
  rewrite EO. cbn [obind]. split; [discriminate|]. destruct HC as [-> | ->]; cbn [do_call]; unfold status, warning, print; destruct (_ <=? _); reflexivity.
Qed.
Print Assumptions C69_open_failure_refuted.
(** *** opening the debug files again before closing them empties the file, and the errors never come back to the terminal: the saved stderr is overwritten with the redirected one *)
Lemma open_again self o v b wo we wd : (0 <= v)%Z -> debug_open self (st DebugFile FOut (Some FOut) (Some FErr) v b wo we wd) o true true = Some (st DebugFile FOut (Some FOut) (Some FOut) v b wo we []).
Proof.
  intros V. unfold debug_open, check_verbosity. cbn [m_verb st]. apply Z.leb_le in V. rewrite V, orb_true_r. destruct (Z.eqb self 0); [|reflexivity].
  unfold status. rewrite (print_fit _ _ p_status (literal t_opening) 1016 ltac:(apply Nat.leb_le; reflexivity) eq_refl). reflexivity.
Qed.
Lemma shown_never h : shown true false h = [].
Proof. induction h as [|c h IH]; [reflexivity|]. destruct c; cbn [shown andb negb]; auto. Qed.
Theorem C69_reopen_refuted : forall self h1 o h2 o' h3, (forall c, In c (h1 ++ h2 ++ h3) -> fits c /\ ~ opens c) -> ~ In DebugClose h2 -> (0 <= verbosity 0 h1)%Z -> (0 <= verbosity 0 (h1 ++ h2))%Z ->
  exists s a, do_calls self ms0 (h1 ++ DebugOpen o true true :: h2 ++ DebugOpen o' true true :: h3) = Some (s, a) /\
  w_err s = errors h1 /\ w_debug s = recorded true false (verbosity 0 (h1 ++ h2)) h3.
Proof.
  intros self h1 o h2 o' h3 HF NC V1 V2. destruct (run_plain self h1 0 false [] [] ltac:(intros c Hc; apply HF, in_app_iff; auto)) as (b1 & a1 & E1). cbn [app] in E1. rewrite verbosity_app in V2.
  destruct (run_debug self h2 true (Some FErr) true (verbosity 0 h1) b1 (notices 0 h1 ++ announcement self) (errors h1) []) as (b2 & a2 & e2 & E2 & _ & Ee & _); [reflexivity|intros c Hc; apply HF; rewrite !in_app_iff; auto|]. rewrite (Ee NC) in E2.
  assert (SN : shown true true h2 = []). { clear - NC. induction h2 as [|c h IH]; [reflexivity|]. destruct c; cbn [shown]; try (apply IH; intros X; apply NC; right; exact X). exfalso. apply NC. left; reflexivity. } rewrite SN, app_nil_r in E2.
  destruct (run_debug self h3 true (Some FOut) false (verbosity (verbosity 0 h1) h2) b2 (notices 0 h1 ++ announcement self) (errors h1) []) as (b3 & a3 & e3 & E3 & _); [split; reflexivity|intros c Hc; apply HF; rewrite !in_app_iff; auto|]. rewrite shown_never, app_nil_r in E3.
  eexists. eexists. rewrite verbosity_app. split; [|]. rewrite do_calls_app. change ms0 with (st TermOut FErr None None 0 false [] [] []). rewrite E1. cbn [obind do_calls do_call]. rewrite (open_first self o true _ _ _ _ V1 (orb_true_r o)). cbn [obind]. rewrite do_calls_app, E2. cbn [obind do_calls do_call]. change (errs true) with FOut. rewrite (open_again self o' _ _ _ _ _ V2). cbn [obind]. change FOut with (errs true) at 1. rewrite E3. cbn [obind]. reflexivity. split; reflexivity.
Qed.
Print Assumptions C69_reopen_refuted.

(** *** a concrete run on rank 0: a suppressed and two shown messages, a warning, an error, the flag before, after and after a new start *)
Definition c69_fmt : fmt := [(list_ascii_of_string "parts: ", list_ascii_of_string "parts: "); (list_ascii_of_string "%d", list_ascii_of_string "12")].
Definition c69_h : list call := [SetVerbosity 1; StartTest; StatusAt 2 c69_fmt; StatusAt 1 c69_fmt; HitError; Error c69_fmt; HitError; Warning c69_fmt; StartTest; HitError; Status c69_fmt].
Example C69_example : (forall c, In c c69_h -> fits c /\ ~ opens c) /\ (0 <= verbosity 0 c69_h)%Z /\ (exists s, do_calls 0 ms0 c69_h = Some (s, [false; true; false]) /\
  map string_of_list_ascii (w_out s) = ["ENGPAR parts: 12"; "[WARNING] ENGPAR parts: 12"; "ENGPAR parts: 12"]%string /\ map string_of_list_ascii (w_err s) = ["[ERROR] ENGPAR parts: 12"]%string) /\
  (exists s a, do_calls 1 ms0 (c69_h ++ [DebugOpen false true true; Error c69_fmt; DebugClose; Error c69_fmt; Status c69_fmt]) = Some (s, a) /\ List.length (w_out s) = 3 /\ List.length (w_err s) = 2 /\
    map string_of_list_ascii (w_debug s) = ["[ERROR] ENGPAR parts: 12"; "ENGPAR parts: 12"]%string).
Proof.
  split. { intros c Hc. cbn [c69_h In] in Hc. repeat (destruct Hc as [<-|Hc]; [split; [cbn [fits]; try exact I; apply Nat.leb_le; reflexivity|intros []]|]). destruct Hc. }
  split; [cbn; lia|]. split; [eexists; split; [vm_compute; reflexivity|split; reflexivity]|]. eexists. eexists. split; [vm_compute; reflexivity|]. repeat split.
Qed.
