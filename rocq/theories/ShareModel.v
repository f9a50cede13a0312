(** * Model of one Stream used more than once (xstream/xstream.go)

    A Stream is a channel; nothing keeps a program from reading it in several places: from
    several goroutines (Chan, xstream.go:183-185, or one Stream given to several operations), or from one operation after another,
    where FindFirst, AnyMach and AllMach leave a goroutine behind that drains the stream
    (startGoroutine with drain, 636-639).  Here any number of goroutines read one channel.

    Simplifications: the stream comes from a goroutine that sends a list of items and closes
    (what a pipeline delivers to its readers by C70, C80 and C88); the readers' other channels
    are not modelled; the callback of Foreach and the predicates return. *)
From Coq Require Import List Bool Arith ZArith Lia.
From Verif Require Import GoBase Trans NetModel XStreamModel.
Import ListNotations.
Open Scope nat_scope.

Section Share.
Context {V E : Type}.
(** [fork e]: the action e starts a goroutine *)
Variable fork : E -> option (proc V E).

Notation hst := (stage V E * list (proc V E))%type.
Inductive hlabel :=
| HSrc                               (* the source puts an item into the channel or closes it *)
| HGet (j : nat) (o : option V)      (* reader j receives an item, or sees the end *)
| HDo (j : nat) (e : E).             (* reader j's other actions *)

(** Go's channel rules, as in NetModel, with several receivers *)
Inductive hstep : hst -> hlabel -> hst -> Prop :=
| HSend : forall v p n b R, length b < n -> hstep ((PSend v p, Ch n b false), R) HSrc ((p, Ch n (b ++ [v]) false), R)
| HClose : forall p n b R, hstep ((PClose p, Ch n b false), R) HSrc ((p, Ch n b true), R)
| HHand : forall v p l k r, hstep ((PSend v p, Ch 0 [] false), l ++ PRecv k :: r) (HGet (length l) (Some v)) ((p, Ch 0 [] false), l ++ k (Some v) :: r)
| HRecv : forall q n v b cl l k r, hstep ((q, Ch n (v :: b) cl), l ++ PRecv k :: r) (HGet (length l) (Some v)) ((q, Ch n b cl), l ++ k (Some v) :: r)
| HEnd : forall q n l k r, hstep ((q, Ch n [] true), l ++ PRecv k :: r) (HGet (length l) None) ((q, Ch n [] true), l ++ k None :: r)
| HCall : forall s l e p r, fork e = None -> hstep (s, l ++ PCall e p :: r) (HDo (length l) e) (s, l ++ p :: r)
| HFork : forall s l e p q r, fork e = Some q -> hstep (s, l ++ PCall e p :: r) (HDo (length l) e) (s, l ++ p :: r ++ [q]).
End Share.
Arguments hlabel : clear implicits.

(** What a caller does with a stream: the events of XStreamModel, and starting a goroutine that
    drains the stream *)
Inductive ucall (A : Type) := USaid (c : call A) | UGo.
Arguments USaid {A}. Arguments UGo {A}.

(** The terminal operations *)
Inductive use (A : Type) :=
| UCount | UForeach | UForeachOrdered | UFindLast | UDone
| UFindFirst | UAnyMach (f : item A -> bool) | UAllMach (f : item A -> bool).
Arguments UCount {A}. Arguments UForeach {A}. Arguments UForeachOrdered {A}. Arguments UFindLast {A}. Arguments UDone {A}.
Arguments UFindFirst {A}. Arguments UAnyMach {A}. Arguments UAllMach {A}.

Section Uses.
Context {A : Type}.
Notation item := (item A). Notation P := (proc item (ucall A)).

(** xstream.go:636-639 drain *)
CoFixpoint drain_u : P := PRecv (fun o => match o with Some _ => drain_u | None => PEnd end).
Definition forks (e : ucall A) : option P := match e with UGo => Some drain_u | USaid _ => None end.

(** An operation of XStreamModel that does all its work in the caller's goroutine (Count 154-159,
    Foreach 346-350, ForeachOrdered 353-362, FindLast 574-585, Done 178-180: [drain]), followed
    by what the caller does [next] *)
CoFixpoint thenp (p : proc item (call A)) (next : P) : P :=
  match p with
  | PRecv k => PRecv (fun o => thenp (k o) next)
  | PCall c p => PCall (USaid c) (thenp p next)
  | PEnd => next
  | PSend v p => PSend v (thenp p next) | PClose p => PClose (thenp p next) | PDead => PDead
  end.
(** xstream.go:559-570 FindFirst *)
Definition findfirst_u (next : P) : P :=
  PRecv (fun o => match o with Some x => PCall UGo (PCall (USaid (RetI (Some x))) next) | None => PCall (USaid (RetI None)) next end).
(** xstream.go:525-537 AnyMach, 542-555 AllMach *)
CoFixpoint anymach_u (f : item -> bool) (next : P) : P :=
  PRecv (fun o => match o with
    | Some x => PCall (USaid (CallF x)) (if f x then PCall UGo (PCall (USaid (RetB true)) next) else anymach_u f next)
    | None => PCall (USaid (RetB false)) next end).
CoFixpoint allmach_u (f : item -> bool) (next : P) : P :=
  PRecv (fun o => match o with
    | Some x => PCall (USaid (CallF x)) (if negb (f x) then PCall UGo (PCall (USaid (RetB false)) next) else allmach_u f next)
    | None => PCall (USaid (RetB true)) next end).

Definition perform (u : use A) (next : P) : P :=
  match u with
  | UCount => thenp (Count (A := A)) next
  | UForeach => thenp (Foreach (A := A)) next
  | UForeachOrdered => thenp (ForeachOrdered (A := A)) next
  | UFindLast => thenp (FindLast (A := A)) next
  | UDone => thenp (drain (A := A)) next
  | UFindFirst => findfirst_u next
  | UAnyMach f => anymach_u f next
  | UAllMach f => allmach_u f next
  end.
(** A goroutine that calls these operations on the stream, one after another *)
Definition caller (us : list (use A)) : P := fold_right perform PEnd us.
End Uses.
