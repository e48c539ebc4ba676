(** The status word of a waiting call: lib/flckbaselist.tcc:418-451, called by lib/flcklistwaiter.cc:52-108 (FLCK_NCOND_WAIT and FLCK_NCOND_UP are two values of the word).
    Any number of threads call the three functions for one word; every look at the word, every compare-and-swap and every clock reading is a step.
    A thread that ends is one that makes no further step.  sched_yield is no step. *)
From Coq Require Import ZArith List Bool Lia.
From Verif Require Import Base Time_Model.
Import ListNotations.
Open Scope Z_scope.

(** a call: set the word to a value; wait until it has a value, without limit or for some microseconds (lib/flcklistwaiter.cc:86-92) *)
Inductive sop := OSet (v : Z) | OWait (w : Z) (limit : option Z).
Inductive sevent := SCall (t : Z) (o : sop) | SBack (t : Z) (r : Z).
Inductive spc :=
| SI
| SLoad (v : Z)                                   (** 448: oldstatus1 = *plockstatus *)
| SCas (v old : Z)                                (** 448: compare-and-swap of oldstatus1, which is taken anew if it fails *)
| WStart (w usec : Z)                             (** 427-430 *)
| WLook (w : Z) (tm : option (timespec * Z))      (** 420, 431 *)
| WClock (w : Z) (start : timespec) (usec : Z)    (** 432-438 *)
| SRet (r : Z).
Record sset := mkS { s_word : Z; s_pc : Z -> spc; s_hist : list sevent }.
Definition at_pc (s : sset) (t : Z) (p : spc) : sset := mkS (s_word s) (upd (s_pc s) t p) (s_hist s).
Inductive slabel := SEnter (t : Z) (o : sop) | SStep (t : Z) (clock : option timespec).
Definition s_enter (o : sop) : spc :=
  match o with OSet v => SLoad v | OWait w None => WLook w None | OWait w (Some u) => WStart w u end.
Definition s_step (s : sset) (l : slabel) : sset :=
  match l with
  | SEnter t o => match s_pc s t with
                  | SI => mkS (s_word s) (upd (s_pc s) t (s_enter o)) (s_hist s ++ [SCall t o])
                  | _ => s
                  end
  | SStep t clk =>
      match s_pc s t with
      | SI => s
      | SLoad v => at_pc s t (SCas v (s_word s))
      | SCas v old => if s_word s =? old then mkS v (upd (s_pc s) t (SRet OK)) (s_hist s) 
                        else at_pc s t (SCas v (s_word s))
      | WStart w u => match clk with None => at_pc s t (SRet EBUSY) | Some st => at_pc s t (WLook w (Some (st, u))) end
      | WLook w tm => if s_word s =? w then at_pc s t (SRet OK)
                      else match tm with None => s | Some (st, u) => at_pc s t (WClock w st u) end
      | WClock w st u => match clk with
                         | None => at_pc s t (SRet EBUSY)
                         | Some now => if IS_OVER_TIMESPEC st now (limit_of_usec u) then at_pc s t (SRet ETIMEDOUT) else at_pc s t (WLook w (Some (st, u)))
                         end
      | SRet r => mkS (s_word s) (upd (s_pc s) t SI) (s_hist s ++ [SBack t r])
      end
  end.
Definition s_exec (s : sset) (ls : list slabel) : sset := fold_left s_step ls s.
Definition s_init (v : Z) : sset := mkS v (fun _ => SI) [].
