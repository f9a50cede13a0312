(** * Specification vocabulary for C94: xonce's operations finish

    Independent of the proofs: which goroutine a step belongs to, which steps are calls,
    and how many steps of a run moved somebody. *)
From Coq Require Import ZArith List Bool Lia.
From Verif Require Import GoBase Trans XOnceModel.
Import ListNotations.

(** The goroutine a step of a Value belongs to. *)
Definition vwho (l : vlabel) : nat :=
  match l with
  | VCall t _ | VTau t | VCommit t _ | VPanic t | VReturn t _ | VLoadCall t | VLoadRet t _ => t
  end.

(** The step is the beginning of a Write or of a Value(). *)
Definition vbegins (l : vlabel) : bool :=
  match l with VCall _ _ | VLoadCall _ => true | _ => false end.

Definition vcalls (tr : list vlabel) : nat := length (filter vbegins tr).

(** The goroutine is inside Write or Value(), and has not panicked. *)
Definition vinside (p : vpc) : Prop := p <> VIdle /\ p <> VDead.

(** A run together with the number of its steps that moved some goroutine to another program
    point; the other steps are goroutines re-reading the type word and finding that they
    must still wait. *)
Inductive vrun : list vlabel -> nat -> vstate -> Prop :=
| vrun_init : forall s, vinit s -> vrun [] 0 s
| vrun_move : forall tr n s l s', vrun tr n s -> vstep s l s' ->
    vpcs s' (vwho l) <> vpcs s (vwho l) -> vrun (tr ++ [l]) (S n) s'
| vrun_wait : forall tr n s l s', vrun tr n s -> vstep s l s' ->
    vpcs s' (vwho l) = vpcs s (vwho l) -> vrun (tr ++ [l]) n s'.

(** Chan: the steps of Write, as opposed to receives by whoever holds the channel. *)
Definition owrites {V} (l : olabel V) : bool := match l with ORecv _ => false | _ => true end.
Definition obegins {V} (l : olabel V) : bool := match l with OCall _ _ => true | _ => false end.
