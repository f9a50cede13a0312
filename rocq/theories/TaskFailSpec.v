(** * Specification of xtask and xworker with user functions that do not return *)
From Coq Require Import ZArith List Bool.
From Verif Require Import GoBase Trans JoinerModel XTaskModel XTaskSpec TaskFailModel.
Import ListNotations.
Open Scope Z_scope.

(** What BatchError makes of a list of errors *)
Definition batch {E} (es : list E) : errv E := match es with [] => ENil | [e] => ESingle e | _ => EArray es end.
Definition failed_until {E} (fn : nat -> fres E) (n : nat) : Prop := forall k, (k < n)%nat -> exists e, fn k = FErr (Some e).

(** DoWithRetry with t retries: either some call n within the t+1 calls (any call, when t is the
    largest int) is the first that does not fail, and its success or panic is the result; or all
    t+1 calls fail and all their errors are returned. *)
Definition retry_result {E} (fn : nat -> fres E) (t : Z) (calls : nat) (r : rres E) : Prop :=
  (exists n, (Z.of_nat n <= t \/ t = max_int) /\ failed_until fn n /\ calls = S n /\
     ((fn n = FErr None /\ r = RRet ENil) \/ (exists p, fn n = FPanic p /\ r = RThrow p))) \/
  (t < max_int /\ exists es, map (fun e => FErr (Some e)) es = map fn (seq 0 (Z.to_nat (t + 1))) /\
     calls = length es /\ r = RRet (batch es)).

(** The events of a run without the failures of deferFunc *)
Definition plain (tr : list flabel) : list slabel := flat_map (fun l => match l with FL l => [l] | _ => [] end) tr.
Definition wplain (tr : list vlabel) : list wlabel := flat_map (fun l => match l with VW l => [l] | _ => [] end) tr.
