(** * Specification for mapreduce.Map *)
From Coq Require Import List Bool Arith.
From Verif Require Import Trans MapRedModel FanSpec.
Import ListNotations.

Section Spec.
Context {X V : Type}.
(** What the map function writes when every write succeeds *)
Fixpoint written (p : mprog V) : list V := match p with PWrite v k => v :: written (k true) | _ => [] end.
(** It does not panic, whatever its writes return *)
Fixpoint calm (p : mprog V) : Prop := match p with PRet => True | PPanic => False | PWrite _ k => calm (k true) /\ calm (k false) end.

Notation xlabel := (xlabel X V).
Definition output (tr : list xlabel) : list V := flat_map (fun l => match l with XOut v => [v] | _ => [] end) tr.
Definition called (tr : list xlabel) : list X := flat_map (fun l => match l with XCall _ x => [x] | _ => [] end) tr.
Definition finished (tr : list xlabel) : list X := flat_map (fun l => match l with XRetn _ x => [x] | _ => [] end) tr.
Definition closed (tr : list xlabel) : nat := length (filter (fun l => match l with XClose => true | _ => false end) tr).
Definition moving (l : xlabel) : bool := match l with XOutEnd => false | _ => true end.
(** steps of the library's own goroutines: doMap and Do *)
Definition library (l : xlabel) : Prop := match l with XLib | XClose | XCrash => True | _ => False end.
End Spec.
