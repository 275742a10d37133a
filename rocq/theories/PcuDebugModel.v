(** PCU's debug files: PCU_Debug_Open, PCU_Debug_Print (pcu/pcu.c:611-671), pcu_open_parallel (pcu/pcu_io.c:354-365), with the life cycle of PCU
    (PCU_Comm_Init, PCU_Comm_Free, PCU_Switch_Comm) as far as these files depend on it.
    Simplifications: ranks are integers; the file system is a set of directories (mkdir and fopen fail only when the directory above is missing) and the
    contents of the debug files; a format of PCU_Debug_Print is the text it prints; PCU_Barrier is two moves, entering and leaving, the latter
    possible once every rank has entered. *)
From Verif Require Import Base.
From Coq Require Import Ascii String.
Local Open Scope list_scope.
Local Open Scope Z_scope.

Definition text := list ascii.
Definition txt (s : string) : text := list_ascii_of_string s.

(** what %d prints for a number that is not negative (an int has at most ten digits) *)
Definition digit (d : Z) : ascii := ascii_of_nat (48 + Z.to_nat d).
Fixpoint dec_loop (fuel : nat) (z : Z) (acc : text) : text :=
  match fuel with O => acc | S f => if z <? 10 then digit z :: acc else dec_loop f (z / 10) (digit (z mod 10) :: acc) end.
Definition dec (z : Z) : text := dec_loop 10 z [].

(** the components of a path, empty ones dropped *)
Fixpoint split_at (p : text) (cur : text) : list text :=
  match p with
  | [] => match cur with [] => [] | _ => [cur] end
  | c :: r => if Ascii.eqb c "/" then match cur with [] => split_at r [] | _ => cur :: split_at r [] end else split_at r (cur ++ [c])
  end.
Definition comps (p : text) : list text := split_at p [].
(** the directory that must exist for mkdir or fopen to create [p] *)
Definition parent (p : text) : list text := removelast (comps p).

(** pcu.c:637-638 *)
Definition fanout : Z := 2048.
Definition bufsize : nat := 1024.
(** append, pcu.c:620-627: vsnprintf writes at most size - len characters, the terminating zero included *)
Definition path_append (s : text) (size : nat) (t : text) : text := s ++ firstn (size - List.length s - 1) t.
(** the path of pcu_open_parallel, pcu_io.c:356-361 *)
Definition max_rank_chars : nat := 10.
Definition open_name (prefix ext : text) (rank : Z) : text :=
  let path_size := (List.length prefix + max_rank_chars + List.length ext + 1)%nat in
  firstn (path_size - 1) (prefix ++ dec rank ++ txt "." ++ ext).

(** what a rank does in PCU_Debug_Open *)
Inductive act := Mkdir (p : text) | Enter | Leave | Open (p : text).
(** PCU_Debug_Open on rank [self] of [n], pcu.c:630-655, when no file is open yet *)
Definition debug_open (n self : Z) : list act :=
  if fanout <? n then
    let path := txt "debug/" in
    let path1 := path_append path bufsize (dec (self / fanout) ++ txt "/") in
    Mkdir path :: (if self mod fanout =? 0 then [Mkdir path1] else []) ++ [Enter; Leave; Open (open_name (path_append path1 bufsize (txt "debug")) (txt "txt") self)]
  else [Open (open_name (path_append [] bufsize (txt "debug")) (txt "txt") self)].

(** * All ranks together *)
(** per rank what it has still to do, whether it entered the barrier and the file it opened; the directories *)
Record dstate := mkDS { d_todo : Z -> list act; d_in : Z -> bool; d_file : Z -> option text; d_dirs : list (list text) }.
Definition zset1 {B} (f : Z -> B) (i : Z) (x : B) : Z -> B := fun j => if j =? i then x else f j.
(** one move of any rank; mkdir of an existing directory is no error (safe_mkdir, pcu.c:611-618), fopen without the directory above returns NULL *)
Inductive dstep (n : Z) : dstate -> dstate -> Prop :=
| ds_mkdir s r p rest : 0 <= r < n -> d_todo s r = Mkdir p :: rest -> In (parent p) (d_dirs s) ->
    dstep n s (mkDS (zset1 (d_todo s) r rest) (d_in s) (d_file s) (comps p :: d_dirs s))
| ds_enter s r rest : 0 <= r < n -> d_todo s r = Enter :: rest -> dstep n s (mkDS (zset1 (d_todo s) r rest) (zset1 (d_in s) r true) (d_file s) (d_dirs s))
| ds_leave s r rest : 0 <= r < n -> d_todo s r = Leave :: rest -> (forall q, 0 <= q < n -> d_in s q = true) ->
    dstep n s (mkDS (zset1 (d_todo s) r rest) (d_in s) (d_file s) (d_dirs s))
| ds_open s r p rest : 0 <= r < n -> d_todo s r = Open p :: rest -> In (parent p) (d_dirs s) ->
    dstep n s (mkDS (zset1 (d_todo s) r rest) (d_in s) (zset1 (d_file s) r (Some p)) (d_dirs s))
| ds_null s r p rest : 0 <= r < n -> d_todo s r = Open p :: rest -> ~ In (parent p) (d_dirs s) ->
    dstep n s (mkDS (zset1 (d_todo s) r rest) (d_in s) (zset1 (d_file s) r None) (d_dirs s)).
Inductive dsteps (n : Z) : nat -> dstate -> dstate -> Prop :=
| dss_refl s : dsteps n 0 s s
| dss_step k s1 s2 s3 : dsteps n k s1 s2 -> dstep n s2 s3 -> dsteps n (S k) s1 s3.
(** the collective call PCU_Debug_Open on [n] ranks *)
Definition dstart (n : Z) (dirs : list (list text)) : dstate := mkDS (debug_open n) (fun _ => false) (fun _ => None) dirs.
(** reel_fail in safe_mkdir, pcu.c:617 *)
Definition dfails (n : Z) (s : dstate) : Prop := exists r p rest, 0 <= r < n /\ d_todo s r = Mkdir p :: rest /\ ~ In (parent p) (d_dirs s).
Definition dfinished (n : Z) (s : dstate) : Prop := forall r, 0 <= r < n -> d_todo s r = [].

(** * One rank *)
(** global_state, pcu_mpi_rank, pcu_mpi_size, msg->file and the contents of the debug files *)
Record pcu := mkPcu { g_on : bool; g_rank : Z; g_size : Z; g_file : option text; g_fs : text -> list text }.
Definition teqb (a b : text) : bool := if list_eq_dec ascii_dec a b then true else false.
Definition fput (fs : text -> list text) (f : text) (c : list text) : text -> list text := fun g => if teqb g f then c else fs g.
Inductive call := Init (rank size : Z) | Free | Switch (rank size : Z) | DebugOpen | DebugPrint (t : text).
(** the name under which rank [r] of [n] opens its file: the last act of debug_open *)
Definition file_of (n r : Z) : option text := match last (debug_open n r) Enter with Open p => Some p | _ => None end.
(** PCU_Comm_Init and PCU_Comm_Free (pcu.c:56-86; pcu_make_msg and pcu_free_msg, pcu_msg.c:73,241), PCU_Switch_Comm (pcu.c:710-715), PCU_Debug_Open (650-653: opened
    with mode "w", only when none is open), PCU_Debug_Print (657-671); [None] is reel_fail *)
Definition do_call (s : pcu) (c : call) : option pcu :=
  match c with
  | Init r n => if g_on s then None else Some (mkPcu true r n None (g_fs s))
  | Free => if g_on s then Some (mkPcu false (g_rank s) (g_size s) None (g_fs s)) else None
  | Switch r n => if g_on s then Some (mkPcu true r n (g_file s) (g_fs s)) else None
  | DebugOpen =>
      if g_on s then
        match g_file s with
        | Some _ => Some s
        | None => f <- file_of (g_size s) (g_rank s) ;; Some (mkPcu true (g_rank s) (g_size s) (Some f) (fput (g_fs s) f []))
        end
      else None
  | DebugPrint t =>
      if g_on s then match g_file s with None => Some s | Some f => Some (mkPcu true (g_rank s) (g_size s) (Some f) (fput (g_fs s) f (g_fs s f ++ [t]))) end else None
  end.
Definition do_calls (s : pcu) (cs : list call) : option pcu := foldM do_call cs s.
Definition pcu0 (fs : text -> list text) : pcu := mkPcu false 0 0 None fs.
