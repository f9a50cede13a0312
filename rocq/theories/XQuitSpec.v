(** * Specification of operations that stop reading a stream *)
From Coq Require Import List Bool Arith.
From Verif Require Import Trans NetModel NetSpec XStreamModel XQuitModel.
Import ListNotations.
Open Scope nat_scope.

Section Spec.
Context {V E : Type}.
(** Behind a source of xs with a channel of any capacity, and with any schedule, the goroutine
    performs exactly the actions [plan] and nothing else, after finitely many steps, without any
    fault; the items [rest] are left in the stream, and the goroutine of the source ends if
    they fit into its channel and never ends otherwise. *)
Definition stops (p : proc V E) (xs : list V) (plan : list (act V E)) (rest : list V) : Prop :=
  forall n m, let ps := [(source xs, n); (p, m)] in
  (exists N, forall tr s, steps nstep (start ps) tr s -> length (filter (fun l => negb (is_outend l)) tr) <= N) /\
  forall tr s, steps nstep (start ps) tr s ->
    Forall (fun st => ~ faulty st) s /\
    prefix (acts 1 tr) plan /\
    ((exists l s', l <> TOutEnd /\ nstep s l s') \/ (acts 1 tr = plan /\ (length rest <= n -> Forall ended s))) /\
    (n < length rest -> ~ Forall ended s).
End Spec.

Section Ops.
Context {A : Type}.
Notation item := (item A). Notation act := (act item (pcall A)).
(** receive each item and call the user's function with it *)
Definition read_calls (xs : list item) : list act := flat_map (fun x => [AcR (Some x); AcC (Did (CallF x))]) xs.
End Ops.
