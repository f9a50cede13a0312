(** * Specification for C46, C47 *)
From Coq Require Import List Bool Arith.
From Verif Require Import Trans SpinModel.
Import ListNotations.

(** The goroutines that own the lock, judging by the calls and returns only: an owner is
    one whose Lock returned, or whose TryLock returned true, and that has not called
    Unlock since. *)
Fixpoint remove1 (t : nat) (l : list nat) : list nat :=
  match l with [] => [] | x :: l' => if Nat.eqb x t then l' else x :: remove1 t l' end.
Definition own_step (o : list nat) (l : slabel) : list nat :=
  match l with
  | SLRet t => t :: o
  | STRet t true => t :: o
  | SUCall t => remove1 t o
  | _ => o
  end.
Definition owners (tr : list slabel) : list nat := fold_left own_step tr [].

(** Clients call Unlock only while they own the lock. *)
Definition disciplined (tr : list slabel) : Prop :=
  forall tr1 t tr2, tr = tr1 ++ SUCall t :: tr2 -> In t (owners tr1).

(** What one goroutine does, in order. *)
Definition of_thread (t : nat) (l : slabel) : bool :=
  match l with
  | SLCall u | SLRet u | STCall u | STRet u _ | SUCall u | SURet u | SCas u _ | SGosched u | SStore u => Nat.eqb u t
  end.
Definition actions (t : nat) (tr : list slabel) : list slabel := filter (of_thread t) tr.

(** The n-th retry (from 0) is preceded by min(16, 2^n) yields. *)
Definition pause (n : nat) : nat := Nat.min 16 (2 ^ n).
Fixpoint failures (t : nat) (n : nat) : list slabel :=
  match n with O => [] | S n' => failures t n' ++ SCas t false :: repeat (SGosched t) (pause n') end.
(** Lock: n failed attempts with growing pauses, then a successful one. *)
Definition lock_script (t n : nat) : list slabel := failures t n ++ [SCas t true].
