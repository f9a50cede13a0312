(** * Specification for C31, C32: what a trace says about one handle *)
From Coq Require Import ZArith List Bool.
From Verif Require Import GoBase Trans XIOModel.
Import ListNotations.

(** Bytes the underlying reader delivered to handle id / bytes handed to the user. *)
Fixpoint filled (id : nat) (t : list rlabel) : str :=
  match t with
  | [] => []
  | RFill i _ bs _ :: t' => (if Nat.eqb i id then bs else []) ++ filled id t'
  | _ :: t' => filled id t'
  end.
Fixpoint delivered (id : nat) (t : list rlabel) : str :=
  match t with
  | [] => []
  | RRead i bs :: t' => (if Nat.eqb i id then bs else []) ++ delivered id t'
  | _ :: t' => delivered id t'
  end.
(** No Get returned the very bufio.Reader (bufio.Writer) it was given. *)
Definition no_alias (t : list rlabel) : Prop := forall size i, ~ In (RGet size (Obj i) i) t.
Definition wno_alias (t : list wlabel) : Prop := forall size i, ~ In (WGet size (Obj i) i) t.

(** Bytes written through handle id / bytes the underlying writers received from it. *)
Fixpoint written (id : nat) (t : list wlabel) : str :=
  match t with
  | [] => []
  | WWrite i bs :: t' => (if Nat.eqb i id then bs else []) ++ written id t'
  | _ :: t' => written id t'
  end.
Fixpoint emitted (id : nat) (t : list wlabel) : str :=
  match t with
  | [] => []
  | WEmit i _ bs _ :: t' => (if Nat.eqb i id then bs else []) ++ emitted id t'
  | _ :: t' => emitted id t'
  end.
