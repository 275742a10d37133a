(** Messages, verbosity, the error flag and the debug files.
    Models support/engpar_message.cpp and EnGPar_Set_Verbosity / EnGPar_Check_Verbosity of support/engpar_support.cpp.
    Simplifications: the text of a message is a list of characters, a format is given by its pieces (a piece of the format string and what vfprintf prints for it: the two differ
    for a conversion specification); the file name debug/debug<rank>.txt, stat and mkdir are left out, whether the file can be opened is an argument of the call. *)
From Verif Require Import Base.
From Coq Require Import Ascii String.
Local Open Scope list_scope.
Local Open Scope nat_scope.

Definition text := list ascii.
(** the prefixes, engpar_message.cpp:70,79,86,94, and the text of lines 23 and 29 *)
Definition p_status : text := list_ascii_of_string "ENGPAR".
Definition p_warning : text := list_ascii_of_string "[WARNING] ENGPAR".
Definition p_error : text := list_ascii_of_string "[ERROR] ENGPAR".
Definition t_opening : text := list_ascii_of_string "Opening debug files. Output can be found in debug/debug#.txt" ++ ["010"%char].
Definition t_failed : text := list_ascii_of_string "Failed to open debug files" ++ ["010"%char].
(** a format string with its arguments: the characters of each piece and what is printed for it (vfprintf, engpar_message.cpp:55) *)
Definition fmt := list (text * text).
Definition format_chars (f : fmt) : text := flat_map fst f.
Definition prints (f : fmt) : text := flat_map snd f.
Definition literal (t : text) : fmt := [(t, t)].

(** the two FILE objects of the C library that stdout and stderr point to at the start *)
Inductive file := FOut | FErr.
(** what a FILE object writes to: the terminal (standard output or standard error), the debug file, or nothing because it was closed *)
Inductive sink := TermOut | TermErr | DebugFile | Closed.
(** the globals of engpar_message.cpp:7-8,60 and engpar_support.cpp:30, the objects behind stdout and stderr, and what has been written, oldest first *)
Record ms := mkMS { m_stdout : file; m_stderr : file; m_old_stdout : option file; m_old_stderr : option file; m_fout : sink; m_ferr : sink; m_verb : Z; m_flag : bool;
  w_out : list text; w_err : list text; w_debug : list text }.
(** at the start of the program, globals are 0 *)
Definition ms0 : ms := mkMS FOut FErr None None TermOut TermErr 0 false [] [] [].

(** engpar_support.cpp:35-37 *)
Definition check_verbosity (s : ms) (v : Z) : bool := (v <=? m_verb s)%Z.
(** writing to a stream; a closed stream must not be used *)
Definition put (s : ms) (f : file) (t : text) : option ms :=
  match (match f with FOut => m_fout s | FErr => m_ferr s end) with
  | TermOut => Some (mkMS (m_stdout s) (m_stderr s) (m_old_stdout s) (m_old_stderr s) (m_fout s) (m_ferr s) (m_verb s) (m_flag s) (w_out s ++ [t]) (w_err s) (w_debug s))
  | TermErr => Some (mkMS (m_stdout s) (m_stderr s) (m_old_stdout s) (m_old_stderr s) (m_fout s) (m_ferr s) (m_verb s) (m_flag s) (w_out s) (w_err s ++ [t]) (w_debug s))
  | DebugFile => Some (mkMS (m_stdout s) (m_stderr s) (m_old_stdout s) (m_old_stderr s) (m_fout s) (m_ferr s) (m_verb s) (m_flag s) (w_out s) (w_err s) (w_debug s ++ [t]))
  | Closed => None
  end.
(** the size of buffer, engpar_message.cpp:53 *)
Definition buffer_size : nat := 1024.
(** EnGPar_Print, engpar_message.cpp:51-57: the prefix, a blank, the format and the terminating zero go into the buffer *)
Definition print (s : ms) (f : file) (prefix : text) (x : fmt) : option ms :=
  if List.length prefix + 1 + List.length (format_chars x) + 1 <=? buffer_size then put s f (prefix ++ " "%char :: prints x) else None.
(** assigning test_flag *)
Definition set_flag (s : ms) (b : bool) : ms := mkMS (m_stdout s) (m_stderr s) (m_old_stdout s) (m_old_stderr s) (m_fout s) (m_ferr s) (m_verb s) b (w_out s) (w_err s) (w_debug s).
(** EnGPar_Set_Verbosity, engpar_support.cpp:31-33 *)
Definition set_verbosity (s : ms) (v : Z) : ms := mkMS (m_stdout s) (m_stderr s) (m_old_stdout s) (m_old_stderr s) (m_fout s) (m_ferr s) v (m_flag s) (w_out s) (w_err s) (w_debug s).
(** EnGPar_Status_Message(format, ...), engpar_message.cpp:67-72 *)
Definition status (s : ms) (x : fmt) : option ms := print s (m_stdout s) p_status x.
(** EnGPar_Status_Message(verbosity, format, ...), engpar_message.cpp:73-80 *)
Definition status_at (s : ms) (v : Z) (x : fmt) : option ms := if check_verbosity s v then print s (m_stdout s) p_status x else Some s.
(** EnGPar_Warning_Message, engpar_message.cpp:82-88 *)
Definition warning (s : ms) (x : fmt) : option ms := print s (m_stdout s) p_warning x.
(** EnGPar_Error_Message, engpar_message.cpp:89-95 *)
Definition error (s : ms) (x : fmt) : option ms := let s := set_flag s true in print s (m_stderr s) p_error x.
(** freopen(file,"w",f): the object f is bound to the debug file, which becomes empty, and f is returned; when the file cannot be opened f is closed and NULL returned *)
Definition freopen (s : ms) (f : file) (ok : bool) : option (ms * option file) :=
  let b := if ok then DebugFile else Closed in
  let w := if ok then [] else w_debug s in
  match f with
  | FOut => match m_fout s with Closed => None | _ => Some (mkMS (m_stdout s) (m_stderr s) (m_old_stdout s) (m_old_stderr s) b (m_ferr s) (m_verb s) (m_flag s) (w_out s) (w_err s) w, if ok then Some f else None) end
  | FErr => match m_ferr s with Closed => None | _ => Some (mkMS (m_stdout s) (m_stderr s) (m_old_stdout s) (m_old_stderr s) (m_fout s) b (m_verb s) (m_flag s) (w_out s) (w_err s) w, if ok then Some f else None) end
  end.
(** assignments to stdout, stderr and the saved pointers *)
Definition set_out (s : ms) (f : file) : ms := mkMS f (m_stderr s) (m_old_stdout s) (m_old_stderr s) (m_fout s) (m_ferr s) (m_verb s) (m_flag s) (w_out s) (w_err s) (w_debug s).
Definition set_err (s : ms) (f : file) : ms := mkMS (m_stdout s) f (m_old_stdout s) (m_old_stderr s) (m_fout s) (m_ferr s) (m_verb s) (m_flag s) (w_out s) (w_err s) (w_debug s).
Definition save_out (s : ms) : ms := mkMS (m_stdout s) (m_stderr s) (Some (m_stdout s)) (m_old_stderr s) (m_fout s) (m_ferr s) (m_verb s) (m_flag s) (w_out s) (w_err s) (w_debug s).
Definition save_err (s : ms) : ms := mkMS (m_stdout s) (m_stderr s) (m_old_stdout s) (Some (m_stderr s)) (m_fout s) (m_ferr s) (m_verb s) (m_flag s) (w_out s) (w_err s) (w_debug s).
(** EnGPar_Debug_Open(mode), engpar_message.cpp:9-43, on rank self: [o], [e] say whether the mode contains the letter, [ok] whether the file can be opened.  After the assignment of line 34
    stderr is not null, so lines 35-39 do nothing. *)
Definition debug_open (self : Z) (s : ms) (o e ok : bool) : option ms :=
  if check_verbosity s 0 then
    s1 <- (if Z.eqb self 0 then status s (literal t_opening) else Some s) ;;
    if o || e then
      let s2 := save_out s1 in
      x <- freopen s2 (m_stdout s2) ok ;;
      let '(s3, r) := x in
      match r with
      | None => error (set_out s3 (match m_old_stdout s3 with Some f => f | None => m_stdout s3 end)) (literal t_failed)
      | Some f => let s4 := set_out s3 f in if e then Some (set_err (save_err s4) (m_stdout s4)) else Some s4
      end
    else Some s1
  else Some s.
(** EnGPar_Debug_Close, engpar_message.cpp:44-49 *)
Definition debug_close (s : ms) : ms :=
  let s1 := match m_old_stdout s with Some f => set_out s f | None => s end in
  match m_old_stderr s1 with Some f => set_err s1 f | None => s1 end.

(** the calls of an application *)
Inductive call := SetVerbosity (v : Z) | Status (x : fmt) | StatusAt (v : Z) (x : fmt) | Warning (x : fmt) | Error (x : fmt) | StartTest | HitError | DebugOpen (o e ok : bool) | DebugClose.
(** one call: the new state and, for EnGPar_Hit_Error (engpar_message.cpp:64-66), its answer; EnGPar_Start_Test is lines 61-63 *)
Definition do_call (self : Z) (s : ms) (c : call) : option (ms * list bool) :=
  match c with
  | SetVerbosity v => Some (set_verbosity s v, [])
  | Status x => s' <- status s x ;; Some (s', [])
  | StatusAt v x => s' <- status_at s v x ;; Some (s', [])
  | Warning x => s' <- warning s x ;; Some (s', [])
  | Error x => s' <- error s x ;; Some (s', [])
  | StartTest => Some (set_flag s false, [])
  | HitError => Some (s, [m_flag s])
  | DebugOpen o e ok => s' <- debug_open self s o e ok ;; Some (s', [])
  | DebugClose => Some (debug_close s, [])
  end.
(** a sequence of calls with the answers given *)
Fixpoint do_calls (self : Z) (s : ms) (cs : list call) : option (ms * list bool) :=
  match cs with
  | [] => Some (s, [])
  | c :: r => '(s1, a) <- do_call self s c ;; '(s2, b) <- do_calls self s1 r ;; Some (s2, a ++ b)
  end.
