(** Paths: lib/flckutil.cc:120-237 (GetRealPath, MakeWorkDirectory) and the trimming helpers of lib/flckutil.h:81-103.
    Strings are lists of characters.  Simplified: memory allocation does not fail; the file system is a map from
    path text to the kind of node (no symbolic links), with failing [stat] and [mkdir] calls given from outside. *)
From Coq Require Import List Bool Ascii String ZArith.
From Verif Require Import Base.
Import ListNotations.
Open Scope char_scope.

Definition text := list ascii.
Definition tx (s : string) : text := list_ascii_of_string s.

Definition char_eqb (a b : ascii) : bool := Ascii.eqb a b.
Definition is_slash (c : ascii) : bool := Ascii.eqb c "/".
Fixpoint text_eqb (a b : text) : bool :=
  match a, b with [], [] => true | x :: a', y :: b' => Ascii.eqb x y && text_eqb a' b' | _, _ => false end.
Definition has_slash (p : text) : bool := existsb is_slash p.

(** outcome of a function that may run into undefined behaviour of C++ *)
Inductive outcome (A : Type) := RFail | RUndef | ROk (a : A).
Arguments RFail {A}. Arguments RUndef {A}. Arguments ROk {A} a.

(** lib/flckutil.cc:139-152: leaves of the path, and whether it ends in a slash; [cur] is the leaf being read *)
Fixpoint split_go (cur : text) (p : text) : list text * bool :=
  match p with
  | [] => match cur with [] => ([], true) | _ => ([cur], false) end
  | c :: r =>
      if is_slash c then
        match cur with
        | [] => split_go [] r                                        (* pos = 0: no leaf *)
        | _ => let '(l, b) := split_go [] r in (cur :: l, b)
        end
      else split_go (cur ++ [c]) r
  end.
Definition split_path (p : text) : list text * bool := split_go [] p.

(** 154-168.  The emptiness test of line 160 looks at the list being walked, which is never empty there;
    [pop_back] of an empty list is undefined behaviour. *)
Fixpoint norm (raw acc : list text) : outcome (list text) :=
  match raw with
  | [] => ROk acc
  | x :: r =>
      if text_eqb x (tx ".") then norm r acc
      else if text_eqb x (tx "..") then
        match acc with [] => RUndef | _ => norm r (removelast acc) end
      else norm r (acc ++ [x])
  end.

(** 170-179 *)
Definition build (leaves : list text) (last_slash : bool) : text :=
  flat_map (fun x => "/" :: x) leaves ++ (if last_slash then ["/"] else []).

(** lib/flckutil.cc:120-181.  [cwd]: result of get_current_dir_name; NULL is assigned to a string (line 131), undefined behaviour *)
Definition GetRealPath (cwd : option text) (p : text) : outcome text :=
  match p with
  | [] => RFail
  | c :: _ =>
      match (if is_slash c then Some p else match cwd with Some d => Some (d ++ ["/"] ++ p) | None => None end) with
      | None => RUndef
      | Some tmp =>
          let '(raw, sl) := split_path tmp in
          match norm raw [] with
          | ROk leaves => ROk (build leaves sl)
          | RFail => RFail
          | RUndef => RUndef
          end
      end
  end.

(** ** MakeWorkDirectory *)
Inductive node := NDir | NReg | NFifo | NChr | NBlk | NSock.
(** file type bits of st_mode (Linux, octal 040000, 0100000, 010000, 020000, 060000, 0140000) *)
Definition ifmt (n : node) : Z :=
  match n with NDir => 16384 | NReg => 32768 | NFifo => 4096 | NChr => 8192 | NBlk => 24576 | NSock => 49152 end.
(** lib/flckutil.cc:230 (also lib/flckshm.cc:264,331,1196): a single bit is tested, not the file type *)
Definition looks_dir (n : node) : bool := negb (Z.land (ifmt n) 16384 =? 0)%Z.
Record fsys := mkFs {
  fs_node : text -> option node;       (** what is there *)
  fs_staterr : text -> bool;           (** stat fails with an error other than ENOENT *)
  fs_mkerr : text -> bool;             (** mkdir fails *)
  fs_umask : Z                         (** umask of the process *)
}.
Definition fs_add (fs : fsys) (p : text) : fsys :=
  mkFs (fun q => if text_eqb q p then Some NDir else fs_node fs q) (fs_staterr fs) (fs_mkerr fs) (fs_umask fs).
Definition fs_mask (fs : fsys) (m : Z) : fsys := mkFs (fs_node fs) (fs_staterr fs) (fs_mkerr fs) m.

(** lib/flckutil.cc:207-235, the loop; [full] is the path so far.  Permissions of the new directory are not modelled. *)
Fixpoint make_dirs (fs : fsys) (full : text) (leaves : list text) : fsys * bool :=
  match leaves with
  | [] => (fs, true)
  | x :: r =>
      let full' := full ++ "/" :: x in
      if fs_staterr fs full' then (fs, false)
      else match fs_node fs full' with
           | None =>
               let old := fs_umask fs in
               let fs1 := fs_mask fs 0 in
               if fs_mkerr fs1 full' then (fs_mask fs1 old, false)
               else make_dirs (fs_mask (fs_add fs1 full') old) full' r
           | Some k => if looks_dir k then make_dirs fs full' r else (fs, false)
           end
  end.

(** lib/flckutil.cc:183-237 *)
Definition MakeWorkDirectory (cwd : option text) (fs : fsys) (p : text) : outcome (fsys * bool) :=
  match p with
  | [] => ROk (fs, false)
  | _ => match GetRealPath cwd p with
         | RUndef => RUndef
         | RFail => ROk (fs, false)
         | ROk full => ROk (make_dirs fs [] (fst (split_path full)))
         end
  end.

(** ** lib/flckutil.h:81-103 *)
Definition is_space (c : ascii) : bool :=
  existsb (Ascii.eqb c) [" "; "009"; "013"; "010"].
Fixpoint ltrim (s : text) : text := match s with c :: r => if is_space c then ltrim r else s | [] => [] end.
Definition rtrim (s : text) : text := rev (ltrim (rev s)).
Definition trim (s : text) : text := ltrim (rtrim s).
