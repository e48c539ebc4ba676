(** C167: setting and awaiting the status word as if each call acted at one moment. *)
From Coq Require Import ZArith List Bool.
From Verif Require Import Base Cset_Model.
Import ListNotations.
Open Scope Z_scope.

(** [seen]: the word has been different from the value awaited at some moment of the call *)
Inductive apc := AI | ACalled (o : sop) (seen : bool) | ADone (r : Z).
Record aset := mkA { a_word : Z; a_pc : Z -> apc; a_hist : list sevent }.
(** the one moment of a call: the word, before and after, and the result *)
Inductive acts : sop -> bool -> Z -> Z -> Z -> Prop :=
| act_set : forall v b x, acts (OSet v) b x v 0
| act_met : forall w lim b, acts (OWait w lim) b w w 0
| act_over : forall w u x, acts (OWait w (Some u)) true x x ETIMEDOUT
| act_noclock : forall w u b x, acts (OWait w (Some u)) b x x EBUSY.
Definition only (t : Z) (a : aset) (q : apc) (p : Z -> apc) : Prop := p t = q /\ forall u, u <> t -> p u = a_pc a u.
Inductive a_step (a : aset) : aset -> Prop :=
| as_call : forall t o p, a_pc a t = AI -> only t a (ACalled o false) p -> a_step a (mkA (a_word a) p (a_hist a ++ [SCall t o]))
| as_see : forall t w lim b p, a_pc a t = ACalled (OWait w lim) b -> a_word a <> w -> only t a (ACalled (OWait w lim) true) p -> a_step a (mkA (a_word a) p (a_hist a))
| as_act : forall t o b x r p, a_pc a t = ACalled o b -> acts o b (a_word a) x r -> only t a (ADone r) p -> a_step a (mkA x p (a_hist a))
| as_back : forall t r p, a_pc a t = ADone r -> only t a AI p -> a_step a (mkA (a_word a) p (a_hist a ++ [SBack t r])).
Inductive a_reach (v : Z) : aset -> Prop :=
| ar_init : forall p, (forall t, p t = AI) -> a_reach v (mkA v p [])
| ar_step : forall a b, a_reach v a -> a_step a b -> a_reach v b.

(** executions of the code *)
Inductive s_reach (v : Z) : sset -> Prop :=
| sr_init : s_reach v (s_init v)
| sr_step : forall s l, s_reach v s -> s_reach v (s_step s l).
(** only thread t makes steps *)
Fixpoint alone (t : Z) (clks : list (option Time_Model.timespec)) (s : sset) : sset :=
  match clks with [] => s | c :: r => alone t r (s_step s (SStep t c)) end.
(** the next step of thread u writes the word / is a compare-and-swap that fails *)
Definition writes (s : sset) (u : Z) : nat := match s_pc s u with SCas _ old => if s_word s =? old then 1%nat else 0%nat | _ => 0%nat end.
Definition misses (s : sset) (u : Z) : nat := match s_pc s u with SCas _ old => if s_word s =? old then 0%nat else 1%nat | _ => 0%nat end.
(** along an execution: failed compare-and-swaps of thread t, writes of other threads *)
Fixpoint failed (t : Z) (s : sset) (ls : list slabel) : nat :=
  match ls with [] => 0%nat | l :: r => ((match l with SStep u _ => if Z.eqb u t then misses s t else 0 | _ => 0 end) + failed t (s_step s l) r)%nat end.
Fixpoint written (t : Z) (s : sset) (ls : list slabel) : nat :=
  match ls with [] => 0%nat | l :: r => ((match l with SStep u _ => if Z.eqb u t then 0 else writes s u | _ => 0 end) + written t (s_step s l) r)%nat end.
(** the call that thread t has made and that has not returned *)
Definition current (t : Z) (h : list sevent) : option sop :=
  fold_left (fun c e => match e with SCall u o => if Z.eqb u t then Some o else c | SBack u _ => if Z.eqb u t then None else c end) h None.
