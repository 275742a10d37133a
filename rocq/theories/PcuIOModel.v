(** Model of the uncompressed binary file functions of /repo/pcu/pcu_io.c (the bzip2 branch is
    not modelled).  Memory and files are lists of bytes (numbers below 256); a host is little or
    big endian; an unsigned is a number below 2^32, a double is an uninterpreted 64-bit word
    stored in the host's byte order.  [None]: short read (reel_fail) or malformed memory. *)
From Verif Require Import Base PcuMsgModel.

Inductive host := Little | Big.

(** k bytes of w, least significant first, and back *)
Fixpoint le_bytes (k : nat) (w : Z) : list byte :=
  match k with 0 => [] | S k' => Z.to_nat (w mod 256) :: le_bytes k' (w / 256) end.
Fixpoint of_le (m : list byte) : Z :=
  match m with [] => 0%Z | b :: r => (Z.of_nat b + 256 * of_le r)%Z end.
(** the representation of a k-byte word in the memory of a host, and the word memory represents *)
Definition store (h : host) (k : nat) (w : Z) : list byte :=
  match h with Little => le_bytes k w | Big => rev (le_bytes k w) end.
Definition fetch (h : host) (m : list byte) : Z :=
  match h with Little => of_le m | Big => of_le (rev m) end.

(** pcu_io.c:244-247: PCU_ENDIANNESS is the first byte of the uint16_t 1; PCU_ENCODED_ENDIAN is 0 *)
Definition endianness (h : host) : bool := match store h 2 1 with 1 :: _ => true | _ => false end.
Definition must_swap (h : host) : bool := negb (Bool.eqb (endianness h) false).

(** pcu_io.c:249-255.  Loading and storing an uint16_t or uint32_t on one host moves its bytes
    unchanged, so swapping two of them exchanges their byte blocks. *)
Definition swap_16 (m : list byte) : option (list byte) :=
  match m with [a; b] => Some [b; a] | _ => None end.
(** pcu_io.c:257-265 *)
Definition swap_32 (m : list byte) : option (list byte) :=
  if length m =? 4 then
    let m1 := skipn 2 m ++ firstn 2 m in
    a <- swap_16 (firstn 2 m1) ;; b <- swap_16 (skipn 2 m1) ;; Some (a ++ b)
  else None.
(** pcu_io.c:267-274 *)
Definition swap_64 (m : list byte) : option (list byte) :=
  if length m =? 8 then
    let m1 := skipn 4 m ++ firstn 4 m in
    a <- swap_32 (firstn 4 m1) ;; b <- swap_32 (skipn 4 m1) ;; Some (a ++ b)
  else None.
(** pcu_io.c:276-288: n words of k bytes, one after the other *)
Fixpoint swap_words (k : nat) (sw : list byte -> option (list byte)) (n : nat) (m : list byte) : option (list byte) :=
  match n with
  | 0 => Some []
  | S n' => a <- sw (firstn k m) ;; b <- swap_words k sw n' (skipn k m) ;; Some (a ++ b)
  end.

(** pcu_io.c:207-217, 219-229, 231-239: append to the file / take the next n bytes *)
Definition fwrite (f : list byte) (m : list byte) : list byte := f ++ m.
Definition fread (f : list byte) (n : nat) : option (list byte * list byte) :=
  if length f <? n then None else Some (firstn n f, skipn n f).

Definition words (h : host) (k : nat) (ws : list Z) : list byte := concat (map (store h k) ws).
Fixpoint unwords (h : host) (k n : nat) (m : list byte) : list Z :=
  match n with 0 => [] | S n' => fetch h (firstn k m) :: unwords h k n' (skipn k m) end.

(** pcu_io.c:290-304 (k=4) and 306-320 (k=8) *)
Definition write_words (h : host) (k : nat) (sw : list byte -> option (list byte)) (f : list byte) (ws : list Z)
  : option (list byte) :=
  let p := words h k ws in
  if must_swap h then tmp <- swap_words k sw (length ws) p ;; Some (fwrite f tmp) else Some (fwrite f p).
Definition write_unsigneds h := write_words h 4 swap_32.
Definition write_doubles h := write_words h 8 swap_64.
(** pcu_io.c:322-327 and 329-334 *)
Definition read_words (h : host) (k : nat) (sw : list byte -> option (list byte)) (f : list byte) (n : nat)
  : option (list Z * list byte) :=
  '(p, f') <- fread f (k * n) ;;
  p' <- (if must_swap h then swap_words k sw n p else Some p) ;;
  Some (unwords h k n p', f').
Definition read_unsigneds h := read_words h 4 swap_32.
Definition read_doubles h := read_words h 8 swap_64.

(** strlen: the memory of a string is its characters, then 0 *)
Fixpoint strlen (m : list byte) : option nat :=
  match m with [] => None | 0 :: _ => Some 0 | S _ :: r => n <- strlen r ;; Some (S n) end.
(** pcu_io.c:349-353 *)
Definition write_string (f m : list byte) : option (list byte) :=
  n <- strlen m ;; Some (fwrite f (firstn (n + 1) m)).
(** pcu_io.c:336-347: one byte at a time into a growing buffer; the fuel bounds the loop *)
Fixpoint read_string_loop (fuel : nat) (b : buffer) (f : list byte) : option (buffer * list byte) :=
  match fuel with
  | 0 => None
  | S fu =>
      let (b1, _) := push_buffer b 1 in
      '(c, f') <- fread f 1 ;;
      m <- write_at (b_mem b1) (b_size b1 - 1) c ;;
      let b2 := {| b_mem := m; b_size := b_size b1 |} in
      match c with
      | [0] => Some (b2, f')
      | _ => read_string_loop fu b2 f'
      end
  end.
(** pcu_resize_buffer, pcu_buffer.c:61-66: capacity and size become the given size *)
Definition read_string (f : list byte) : option (list byte * list byte) :=
  '(b, f') <- read_string_loop (S (length f)) make_buffer f ;;
  s <- read_at (realloc (b_mem b) (b_size b)) 0 (b_size b) ;; Some (s, f').

(** A file as a sequence of records, each written by one call. *)
Inductive item := Unsigneds (ws : list Z) | Doubles (ws : list Z) | Str (s : list byte).
Definition write_item (h : host) (f : list byte) (x : item) : option (list byte) :=
  match x with
  | Unsigneds ws => write_unsigneds h f ws
  | Doubles ws => write_doubles h f ws
  | Str s => write_string f s
  end.
(** the reader knows the kinds and counts *)
Definition read_item (h : host) (f : list byte) (shape : item) : option (item * list byte) :=
  match shape with
  | Unsigneds ws => '(r, f') <- read_unsigneds h f (length ws) ;; Some (Unsigneds r, f')
  | Doubles ws => '(r, f') <- read_doubles h f (length ws) ;; Some (Doubles r, f')
  | Str _ => '(r, f') <- read_string f ;; Some (Str r, f')
  end.
Fixpoint read_items (h : host) (f : list byte) (shapes : list item) : option (list item * list byte) :=
  match shapes with
  | [] => Some ([], f)
  | x :: r => '(y, f1) <- read_item h f x ;; '(ys, f2) <- read_items h f1 r ;; Some (y :: ys, f2)
  end.
