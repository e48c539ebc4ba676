(** Layout and initial contents of the shared file (lib/flckshminit.cc:231-374 [FlShm::InitializeShmFile]). *)
From Coq Require Import ZArith List Bool Lia.
From Verif Require Import Base List_Model.
Import ListNotations.
Open Scope Z_scope.

(** the configured area counts, lib/flckshm.cc:183-188 *)
Record counts := mkCnt { n_file : Z; n_off : Z; n_locker : Z; n_nmtx : Z; n_ncond : Z; n_waiter : Z }.

(** sizeof on x86-64, lib/flckstructure.h:53-156 *)
Definition sz_FLHEAD := 136.
Definition sz_FLFILELOCK := 40.
Definition sz_FLOFFLOCK := 56.
Definition sz_FLLOCKER := 24.
Definition sz_FLNAMEDMUTEX := 96.
Definition sz_FLNAMEDCOND := 88.
Definition sz_FLWAITER := 32.

(** lib/flckutil.h:45-48: ALIGNMENT on unsigned 64-bit numbers *)
Definition ALIGNMENT (value size : Z) : Z := u64 ((value / size + (if value mod size =? 0 then 0 else 1)) * size).

(** lib/flckutil.cc:537-553 [GetSystemPageSize]: [s_init] is never true before the test, so the default is returned *)
Definition GetSystemPageSize : Z := 4096.

(** lib/flckshminit.cc:244-260: one [size_t] product, one [off_t] sum *)
Definition area_bytes (size n : Z) : Z := u64 (size * n).
Definition off_next (off size n : Z) : Z := s64 (off + ALIGNMENT (area_bytes size n) 8).

Definition off_filelock (c : counts) : Z := s64 (0 + ALIGNMENT sz_FLHEAD 8).
Definition off_offlock (c : counts) : Z := off_next (off_filelock c) sz_FLFILELOCK (n_file c).
Definition off_locker (c : counts) : Z := off_next (off_offlock c) sz_FLOFFLOCK (n_off c).
Definition off_nmtxlock (c : counts) : Z := off_next (off_locker c) sz_FLLOCKER (n_locker c).
Definition off_ncondlock (c : counts) : Z := off_next (off_nmtxlock c) sz_FLNAMEDMUTEX (n_nmtx c).
Definition off_waiter (c : counts) : Z := off_next (off_ncondlock c) sz_FLNAMEDCOND (n_ncond c).
Definition off_end (c : counts) : Z := off_next (off_waiter c) sz_FLWAITER (n_waiter c).
Definition sz_total (c : counts) : Z := ALIGNMENT (u64 (off_end c)) GetSystemPageSize.

(** offsets of the members of [FLHEAD], lib/flckstructure.h:129-156 *)
Definition h_version := 0.
Definition h_flength := 32.
Definition h_file_lock_lockid := 40.
Definition h_file_lock_list := 48.
Definition h_named_mutex_lockid := 56.
Definition h_named_mutex_list := 64.
Definition h_named_cond_lockid := 72.
Definition h_named_cond_list := 80.
Definition h_file_lock_free := 88.
Definition h_offset_lock_free := 96.
Definition h_locker_free := 104.
Definition h_named_mutex_free := 112.
Definition h_named_cond_free := 120.
Definition h_waiter_free := 128.

(** lib/flckshminit.cc:304-374 MakeList...: chain the entries and deliver the relative pointer to the first one;
    [next] is the first member of every entry type *)
Definition make_list (base size off n : Z) : Z * list write :=
  let ptr := base + off in
  if ptr =? 0 then (0, [])
  else match init_list base 0 size ptr (Z.to_nat n) with
       | (true, ws) => (to_rel base ptr, ws)
       | (false, ws) => (to_rel base 0, ws)
       end.

(** lines 282-288: the entries are written, then the head cell; [cell] is the free pointer *)
Definition make_pool (base cell size off n : Z) : Z * list write :=
  let (r, ws) := make_list base size off n in (r, ws ++ [(cell, r)]).

(** InitializeShmFile after the file was filled with zeros (lines 263-268: [flck_fill_zero], [RawMap]; both are
    assumed to succeed here): the pointer-sized stores.  The version string (lines 273) is not modelled. *)
Definition init_writes (base : Z) (c : counts) : list write :=
  [(h_version, 1); (h_flength, sz_total c); (h_file_lock_lockid, 0); (h_file_lock_list, 0);
   (h_named_mutex_lockid, 0); (h_named_mutex_list, 0)]
  ++ snd (make_pool base h_file_lock_free sz_FLFILELOCK (off_filelock c) (n_file c))
  ++ snd (make_pool base h_offset_lock_free sz_FLOFFLOCK (off_offlock c) (n_off c))
  ++ snd (make_pool base h_locker_free sz_FLLOCKER (off_locker c) (n_locker c))
  ++ snd (make_pool base h_named_mutex_free sz_FLNAMEDMUTEX (off_nmtxlock c) (n_nmtx c))
  ++ snd (make_pool base h_named_cond_free sz_FLNAMEDCOND (off_ncondlock c) (n_ncond c))
  ++ snd (make_pool base h_waiter_free sz_FLWAITER (off_waiter c) (n_waiter c)).

(** content of the mapped file afterwards *)
Definition init_mem (base : Z) (c : counts) : mem := apply_writes (fun _ => 0) (init_writes base c).

(** lines 290-297: success = no free pointer is NULL *)
Definition init_ok (base : Z) (c : counts) : bool :=
  forallb (fun cell => negb (init_mem base c cell =? 0))
    [h_file_lock_free; h_offset_lock_free; h_locker_free; h_named_mutex_free; h_named_cond_free; h_waiter_free].
