(** * Specification of stream expressions

    [may e ys]: the expression may deliver ys.  A source delivers its items; an operator with
    one goroutine what it delivers alone (works) on something its stream may deliver; Walk all
    outputs of f, those of one item in order; Concat all items of all its streams, those of
    one stream in order. *)
From Coq Require Import List Bool Arith.
From Verif Require Import Trans NetModel NetSpec FanModel FanSpec PipeModel PipeSpec TreeModel.
Import ListNotations.

Section Spec.
Context {V E : Type}.
Notation sexp := (sexp V E). Notation tree := (tree V E). Notation qlabel := (qlabel V E). Notation proc := (proc V E).

Inductive may : sexp -> list V -> Prop :=
| may_src : forall xs k, may (XSrc xs k) xs
| may_seq : forall p k e xs ys, may e xs -> works p xs ys -> may (XSeq p k e) ys
| may_walk : forall f w e xs ys, may e xs -> walked f w xs ys -> may (XWalk f w e) ys
| may_cat : forall es a xss xs ys, Forall2 may es xss -> may a xs -> interleaving (xss ++ [xs]) ys -> may (XCat es a) ys.

(** Every operator with one goroutine copes with everything that its stream may deliver (for
    the operators of the library: C62 to C66), and Walk has a worker *)
Inductive ok : sexp -> Prop :=
| ok_src : forall xs k, ok (XSrc xs k)
| ok_seq : forall p k e, ok e -> (forall xs, may e xs -> exists ys, works p xs ys) -> ok (XSeq p k e)
| ok_walk : forall f w e, ok e -> 1 <= w -> ok (XWalk f w e)
| ok_cat : forall es a, Forall ok es -> ok a -> ok (XCat es a).

Definition tdelivered (tr : list qlabel) : list V := flat_map (fun l => match l with QOut v => [v] | _ => [] end) tr.
(** The calls made by the operator at the root *)
Definition tcalls (tr : list qlabel) : list E := flat_map (fun l => match l with QCall [] e => [e] | _ => [] end) tr.

(** From s every schedule comes to an end (apart from asking again after the end of the stream) *)
Inductive thalts : tree -> Prop :=
| thalts_all : forall s, (forall l s', l <> QEnd -> tmove s l s' -> thalts s') -> thalts s.

(** Whatever the schedule: nobody panics; while something is left, somebody can move; every
    schedule ends; what the reader got so far is the beginning of a result that satisfies P,
    it is such a result when the reader sees the end of the stream; and when all is over the
    reader can see that end. *)
Record gives (s0 : tree) (P : list V -> Prop) : Prop := {
  gi_safe : forall tr s, steps tmove s0 tr s -> ~ tfault s;
  gi_live : forall tr s, steps tmove s0 tr s -> (exists l s', l <> QEnd /\ tmove s l s') \/ tover s;
  gi_halts : forall tr s, steps tmove s0 tr s -> thalts s;
  gi_prefix : forall tr s, steps tmove s0 tr s -> exists ys, P ys /\ prefix (tdelivered tr) ys;
  gi_closed : forall tr s s', steps tmove s0 tr s -> tmove s QEnd s' -> P (tdelivered tr);
  gi_over : forall tr s, steps tmove s0 tr s -> tover s -> P (tdelivered tr) /\ tmove s QEnd s }.

(** The same with a terminal operation at the root: Q says what calls it makes *)
Record ends_with (s0 : tree) (Q : list E -> Prop) : Prop := {
  ew_safe : forall tr s, steps tmove s0 tr s -> ~ tfault s;
  ew_live : forall tr s, steps tmove s0 tr s -> (exists l s', l <> QEnd /\ tmove s l s') \/ tover s;
  ew_halts : forall tr s, steps tmove s0 tr s -> thalts s;
  ew_prefix : forall tr s, steps tmove s0 tr s -> exists es, Q es /\ prefix (tcalls tr) es;
  ew_over : forall tr s, steps tmove s0 tr s -> tover s -> Q (tcalls tr) }.
End Spec.
