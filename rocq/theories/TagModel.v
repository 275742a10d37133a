(** Tags (agi/agiTag.cpp, agi/agiInfo.h) and migration plans (agi/agiMigration.cpp).  The values of
    int, double and long tags are uninterpreted (Z); memory is an array with uninitialised cells. *)
From Verif Require Import Base GraphModel.

(** createIntTag / createDoubleTag / createLongTag, agiTag.cpp:7-36; [None] is VTX_TYPE *)
Definition create_tag (g : graph) (t : option nat) : option (arr Z) :=
  match t with
  | None => Some (anew (nlv g))
  | Some t => ed <- gtype g t ;; Some (anew (e_num ed))
  end.
(** getIntTag(tag,vtx), agiTag.cpp:40-45; the double and long versions 51-56, 62-67 are the same *)
Definition get_vtag (g : graph) (tag : arr Z) (h : nat) : option Z :=
  l <- vlid h ;; aget tag (if nlv g <=? l then l - nlv g else l).
(** setIntTag(tag,vtx,val), agiTag.cpp:73-76, 82-85, 91-94 *)
Definition set_vtag (tag : arr Z) (h : nat) (x : Z) : option (arr Z) :=
  l <- vlid h ;; aset tag l x.
(** getIntTag(tag,edge), agiTag.cpp:46-50 etc. *)
Definition get_etag (g : graph) (tag : arr Z) (h : nat) : option Z :=
  '(_, id) <- edec (ntypes g) h ;; aget tag id.
(** setIntTag(tag,edge,val), agiTag.cpp:77-81 etc. *)
Definition set_etag (g : graph) (tag : arr Z) (h : nat) (x : Z) : option (arr Z) :=
  '(_, id) <- edec (ntypes g) h ;; aset tag id x.

(* ------------------------------------------------------------------ *)
(** * Ghost tags: createIntGhostTag, agiTag.cpp:100-135 (long 136-171, double 173-209) *)

(** 104-111: one request per ghost, to its owner *)
Definition ghost_requests (g : graph) (fuel : nat) : option (list (Z * Z)) :=
  hs <- all_ghosts g fuel ;;
  mapM (fun h => gid <- vgid g h ;; o <- owner g h ;; Some (o, gid)) hs.
(** vtx_mapping[gid]: default-inserts 0 for an unknown id *)
Definition mapped (g : graph) (gid : Z) : nat := match zfind (vmap g) gid with Some l => l | None => 0 end.
(** 114-121: the owner evaluates the callback; [cb] takes the vertex handle *)
Definition ghost_answers (g : graph) (cb : nat -> option Z) (arrived : list (Z * Z)) : option (list (Z * (Z * Z))) :=
  mapM (fun r => val <- cb (getVertex (mapped g (snd r))) ;; Some (fst r, (snd r, val))) arrived.
(** 129-136: store at localID - num_local_verts *)
Definition ghost_install (g : graph) (arrived : list (Z * (Z * Z))) : option (arr Z) :=
  foldM (fun tag r => l <- vlid (getVertex (mapped g (fst (snd r)))) ;;
           if l <? nlv g then None else aset tag (l - nlv g) (snd (snd r)))
        arrived (anew (ngv g)).

(* ------------------------------------------------------------------ *)
(** * Migration plans: agiMigration.cpp *)
Record mplan := mkPlan { pl_dest : arr Z; pl_sending : list nat }.
(** Migration::Migration, agiMigration.cpp:5-16; a part without vertices has dest = NULL (no cells) *)
Definition plan_new (g : graph) (fuel : nat) : option mplan :=
  if nlv g =? 0 then Some (mkPlan [] [])
  else tag <- create_tag g None ;; hs <- all_verts g fuel ;;
       tag' <- foldM (fun a h => set_vtag a h (-1)%Z) hs tag ;; Some (mkPlan tag' []).
(** 22-24 *)
Definition plan_size (p : mplan) : nat := length (pl_sending p).
(** 25-27 *)
Definition plan_has (g : graph) (p : mplan) (h : nat) : option bool :=
  l <- vlid h ;; if l <? nlv g then x <- get_vtag g (pl_dest p) h ;; Some (negb (Z.eqb x (-1))) else Some false.
(** 28-30 *)
Definition plan_get (g : graph) (p : mplan) (h : nat) : option Z := get_vtag g (pl_dest p) h.
(** 32-40 *)
Definition plan_insert (g : graph) (p : mplan) (h : nat) (d : Z) : option (mplan * bool) :=
  b <- plan_has g p h ;;
  if b then tag <- set_vtag (pl_dest p) h d ;; Some (mkPlan tag (pl_sending p), false)
  else tag <- set_vtag (pl_dest p) h d ;; Some (mkPlan tag (pl_sending p ++ [h]), true).
(** 42-47 *)
Definition plan_clear (p : mplan) : option mplan :=
  tag <- foldM (fun a h => set_vtag a h (-1)%Z) (pl_sending p) (pl_dest p) ;; Some (mkPlan tag []).
