(** What a path means, without looking at the code. *)
From Coq Require Import List Bool Ascii String ZArith.
From Verif Require Import Base Path_Model.
Import ListNotations.

(** an absolute path is a sequence of components, each preceded by a slash: "/a//b/" is [a, (empty), b, (empty)] *)
Definition path_of (cs : list text) : text := flat_map (cons "/"%char) cs.
Definition component (c : text) : Prop := ~ In "/"%char c.

(** walking from a directory, given as the list of names from the root: the directory reached, None above the root *)
Fixpoint walk (d : list text) (cs : list text) : option (list text) :=
  match cs with
  | [] => Some d
  | c :: r =>
      if list_eq_dec ascii_dec c (tx "") then walk d r
      else if list_eq_dec ascii_dec c (tx ".") then walk d r
      else if list_eq_dec ascii_dec c (tx "..") then
        match rev d with [] => None | _ :: up => walk (rev up) r end
      else walk (d ++ [c]) r
  end.

(** a name of a directory entry *)
Definition proper (c : text) : Prop := c <> [] /\ c <> tx "." /\ c <> tx ".." /\ component c.

(** the normalised path: absolute, proper components only, with or without a final slash *)
Definition normalised (q : text) (d : list text) (slash : bool) : Prop :=
  q = path_of d ++ (if slash then tx "/" else []) /\ Forall proper d /\ exists r, q = "/"%char :: r.

(** the directories that lead to [d], from the top *)
Definition ancestor (a d : list text) : Prop := exists r, d = a ++ r /\ a <> [].
