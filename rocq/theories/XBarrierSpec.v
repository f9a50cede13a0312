(** * Specification for C44, C45 *)
From Coq Require Import List Bool Arith.
From Verif Require Import Trans XBarrierModel.
Import ListNotations.

(** What goroutine t's Reads received during a trace. *)
Fixpoint takes_of {V} (t : nat) (tr : list (rlabel V)) : list (option V) :=
  match tr with
  | [] => []
  | RTake u o :: tr' => if Nat.eqb u t then o :: takes_of t tr' else takes_of t tr'
  | _ :: tr' => takes_of t tr'
  end.
(** All values offered to the channel, and all values anybody received, in order. *)
Fixpoint offered {V} (tr : list (rlabel V)) : list V :=
  match tr with [] => [] | ESend v :: tr' => v :: offered tr' | _ :: tr' => offered tr' end.
Fixpoint received {V} (tr : list (rlabel V)) : list V :=
  match tr with
  | [] => []
  | RTake _ (Some v) :: tr' => v :: received tr'
  | ETake v :: tr' => v :: received tr'
  | _ :: tr' => received tr'
  end.

(** What goroutine t's Writes sent during a trace. *)
Fixpoint sends_of {V} (t : nat) (tr : list (wlabel V)) : list V :=
  match tr with
  | [] => []
  | WSent u v :: tr' => if Nat.eqb u t then v :: sends_of t tr' else sends_of t tr'
  | _ :: tr' => sends_of t tr'
  end.
(** All values sent, and all values received, in order. *)
Fixpoint sent {V} (tr : list (wlabel V)) : list V :=
  match tr with
  | [] => []
  | WSent _ v :: tr' => v :: sent tr'
  | FSend v :: tr' => v :: sent tr'
  | _ :: tr' => sent tr'
  end.
Fixpoint got {V} (tr : list (wlabel V)) : list V :=
  match tr with [] => [] | FGot v :: tr' => v :: got tr' | _ :: tr' => got tr' end.
