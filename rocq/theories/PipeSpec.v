(** * Specification of whole pipelines

    A pipeline may deliver ys from xs ([may]) if ys comes out by applying the operators one
    after the other: a sequential operator gives what it gives alone (works), Walk gives all
    the outputs of f, those of one item in order, those of different items interleaved at will
    (in the order of the items if there is one worker). *)
From Coq Require Import List Bool Arith.
From Verif Require Import Trans NetModel NetSpec FanModel FanSpec PipeModel.
Import ListNotations.

Section Spec.
Context {V E : Type}.
Notation op := (op V E). Notation plabel := (plabel V E). Notation proc := (proc V E).

Definition walked (f : V -> list V) (w : nat) (xs ys : list V) : Prop :=
  interleaving (map f xs) ys /\ (w = 1 -> ys = concat (map f xs)).
Inductive may : list op -> list V -> list V -> Prop :=
| may_nil : forall xs, may [] xs xs
| may_seq : forall p n ops xs ys zs, works p xs ys -> may ops ys zs -> may (OSeq p n :: ops) xs zs
| may_walk : forall f w ops xs ys zs, walked f w xs ys -> may ops ys zs -> may (OWalk f w :: ops) xs zs.

(** [fit n ops m]: every operator copes with as many items as can reach it: at most n items go
    into the first one, out of each at most as many as the next one can take, and at most m
    leave the last one.  (A sequential operator must
    also cope with one item more.) *)
Inductive fit : nat -> list op -> nat -> Prop :=
| fit_nil : forall n m, n <= m -> fit n [] m
| fit_seq : forall n m p k ops z,
    (forall xs, length xs <= S n -> exists ys, works p xs ys) ->
    (forall xs ys, length xs <= n -> works p xs ys -> length ys <= m) -> fit m ops z -> fit n (OSeq p k :: ops) z
| fit_walk : forall n m f w ops z, 1 <= w ->
    (forall xs, length xs <= n -> length (concat (map f xs)) <= m) -> fit m ops z -> fit n (OWalk f w :: ops) z.

Definition pdelivered (tr : list plabel) : list V := flat_map (fun l => match l with POut v => [v] | _ => [] end) tr.
(** The calls made by operator i *)
Definition pcalls (i : nat) (tr : list plabel) : list E :=
  flat_map (fun l => match l with PCallL j e => if i =? j then [e] else [] | _ => [] end) tr.

(** From s every schedule comes to an end (apart from asking again after the end of the stream) *)
Inductive halts : chan V * list (stg V E) -> Prop :=
| halts_all : forall s, (forall l s', l <> POutEnd -> pmove s l s' -> halts s') -> halts s.
(** All goroutines have ended and all channels are empty *)
Definition over (s : chan V * list (stg V E)) : Prop :=
  cbuf (fst s) = [] /\ Forall (fun x => fin (fst x) /\ cbuf (snd x) = []) (snd s).

(** Whatever the schedule: nobody panics; while something is left, somebody can move; every
    schedule ends; what the reader got so far is the beginning of a result that satisfies P,
    it is such a result when the reader sees the end of the stream; and when all is over the
    reader can see that end. *)
Record yields (ops : list op) (P : list V -> Prop) : Prop := {
  gv_safe : forall tr s, steps pmove (pstart ops) tr s -> Forall (fun x => ~ pfault x) (snd s);
  gv_live : forall tr s, steps pmove (pstart ops) tr s -> (exists l s', l <> POutEnd /\ pmove s l s') \/ over s;
  gv_halts : forall tr s, steps pmove (pstart ops) tr s -> halts s;
  gv_prefix : forall tr s, steps pmove (pstart ops) tr s -> exists ys, P ys /\ prefix (pdelivered tr) ys;
  gv_closed : forall tr s s', steps pmove (pstart ops) tr s -> pmove s POutEnd s' -> P (pdelivered tr);
  gv_over : forall tr s, steps pmove (pstart ops) tr s -> over s -> P (pdelivered tr) /\ pmove s POutEnd s }.

(** The same for a pipeline ending in a terminal operation (the last of ops): Q says what calls
    it makes (CallF, RetZ, ... of XStreamModel) *)
Record finishes_with (ops : list op) (Q : list E -> Prop) : Prop := {
  fw_safe : forall tr s, steps pmove (pstart ops) tr s -> Forall (fun x => ~ pfault x) (snd s);
  fw_live : forall tr s, steps pmove (pstart ops) tr s -> (exists l s', l <> POutEnd /\ pmove s l s') \/ over s;
  fw_halts : forall tr s, steps pmove (pstart ops) tr s -> halts s;
  fw_prefix : forall tr s, steps pmove (pstart ops) tr s -> exists es, Q es /\ prefix (pcalls (pred (length ops)) tr) es;
  fw_over : forall tr s, steps pmove (pstart ops) tr s -> over s -> Q (pcalls (pred (length ops)) tr) }.
End Spec.
