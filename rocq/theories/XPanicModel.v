(** * Model of stream operators whose callback may panic (xstream/xstream.go Distinct, Peek)

    The goroutines of the operators run in an ants pool (startGoroutine, 85-87), which recovers
    a panic of the function it runs and logs it; deferred calls of that function run first.  So
    a panic of the callback does not end the program: the goroutine ends where it is, after
    [defer close(source)] if the operator has one.  A callback that panics is modelled by None
    (false).  Walk's f is covered by FanModel: there a panic after some writes looks like a
    return after these writes. *)
From Coq Require Import List Bool Arith ZArith Lia.
From Verif Require Import Trans NetModel XStreamModel.
Import ListNotations.
Open Scope nat_scope.

Section XPanic.
Context {A : Type}.
Notation item := (item A). Notation P := (proc item (call A)).

(** xstream.go:135-151 Distinct: [defer close(source)]; f(item) panics, or gives a key that
    cannot be hashed so that unique[k] panics, iff f x = None *)
CoFixpoint distinct_p (f : item -> option nat) (unique : list nat) : P :=
  PRecv (fun o => match o with
    | Some x => match f x with
                | Some k => if negb (mem k unique) then PSend x (distinct_p f (k :: unique)) else distinct_p f unique
                | None => PClose PEnd
                end
    | None => PClose PEnd end).

(** xstream.go:589-600 Peek: close(source) is the last statement, not deferred; f(item) panics
    iff ok x = false *)
CoFixpoint peek_p (ok : item -> bool) : P :=
  PRecv (fun o => match o with
    | Some x => PSend x (PCall (CallF x) (if ok x then peek_p ok else PEnd))
    | None => PClose PEnd end).
End XPanic.
