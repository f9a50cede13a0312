(** * Model of stream operations whose callback panics in the caller's goroutine
    (xstream/xstream.go Foreach, ForeachOrdered, AnyMach, AllMach, Sort, Group; xstream/collection.go Map)

    These operations read the stream in the goroutine that calls them, so a panic of the
    callback unwinds the operation and reaches the caller.  None of them defers anything.  The
    callback's result is None (false) where it panics.  Each operation is the sequence of channel
    operations and calls of that goroutine, as in XStreamModel, with the event [Panicked] when the
    panic leaves the operation; the caller recovers it and does nothing else with the stream
    (for Map of a Group: may call Map again). *)
From Coq Require Import List Bool Arith ZArith Lia.
From Verif Require Import Trans NetModel XStreamModel.
Import ListNotations.
Open Scope nat_scope.

(** Observable actions: those of XStreamModel, or the panic reaches the caller *)
Inductive pcall (A : Type) := Did (c : call A) | Panicked.
Arguments Did {A}. Arguments Panicked {A}.

Section XQuit.
Context {A : Type}.
Notation item := (item A). Notation P := (proc item (pcall A)).

(** xstream.go:346-350 Foreach *)
CoFixpoint foreach_q (ok : item -> bool) : P :=
  PRecv (fun o => match o with
    | Some x => PCall (Did (CallF x)) (if ok x then foreach_q ok else PCall Panicked PEnd)
    | None => PCall (Did RetU) PEnd end).

(** xstream.go:353-362 ForeachOrdered: [for i := n - 1; i >= 0; i--]; k = i + 1 *)
Fixpoint down_q (ok : item -> bool) (items : list item) (k : nat) : P :=
  match k with
  | O => PCall (Did RetU) PEnd
  | S i => match nth_error items i with
           | Some x => PCall (Did (CallF x)) (if ok x then down_q ok items i else PCall Panicked PEnd)
           | None => PDead
           end
  end.
Definition foreachordered_q (ok : item -> bool) : P := collect [] (fun items => down_q ok items (length items)).

(** xstream.go:525-537 AnyMach and 542-555 AllMach; drain as in xstream.go:636-639 *)
CoFixpoint drain_q : P := PRecv (fun o => match o with Some _ => drain_q | None => PEnd end).
CoFixpoint anymach_q (f : item -> option bool) : P :=
  PRecv (fun o => match o with
    | Some x => PCall (Did (CallF x))
        match f x with
        | Some b => if b then PCall (Did (RetB true)) drain_q else anymach_q f
        | None => PCall Panicked PEnd
        end
    | None => PCall (Did (RetB false)) PEnd end).
CoFixpoint allmach_q (f : item -> option bool) : P :=
  PRecv (fun o => match o with
    | Some x => PCall (Did (CallF x))
        match f x with
        | Some b => if negb b then PCall (Did (RetB false)) drain_q else allmach_q f
        | None => PCall Panicked PEnd
        end
    | None => PCall (Did (RetB true)) PEnd end).

(** xstream.go:242-252 Sort: [slice] stands for what sort.Slice makes of the items, None when a
    call of less panicked; the result is Of(items...) *)
Definition sort_q (slice : list item -> option (list item)) : P :=
  collect [] (fun items => match slice items with
    | Some l => sends l (PClose PEnd)
    | None => PCall Panicked PEnd end).

(** xstream.go:466-473 Group, the loop that fills the map; f(item) panics, or gives a key that
    cannot be hashed, iff f x = None.  [fin ok m]: what follows, after the loop (true) or in the
    caller that recovered the panic (false), with the map m filled so far. *)
CoFixpoint fill_q (f : item -> option nat) (m : list (nat * list item)) (fin : bool -> list (nat * list item) -> P) : P :=
  PRecv (fun o => match o with
    | Some x => match f x with
                | Some k => PCall (Did (CallF x)) (fill_q f (group_add k x m) fin)
                | None => PCall (Did (CallF x)) (fin false m)
                end
    | None => fin true m end).
(** xstream.go:466-482 Group: the groups are sent in the order [ord] puts them *)
Definition group_q (ord : list (nat * list item) -> list (nat * list item)) (f : item -> option nat) : P :=
  fill_q f [] (fun ok m => if ok then sends (map (fun g => ISlice (snd g)) (ord m)) (PClose PEnd) else PCall Panicked PEnd).

(** collection.go:37-47: n calls of Map on the collector, the caller recovering a panic; [cache]
    is g.groups, None for nil.  The map is stored in g.groups before the loop (line 39), so that
    a panic leaves the map filled so far there. *)
Fixpoint gmap_q (f : item -> option nat) (cache : option (list (nat * list item))) (n : nat) : P :=
  match n with
  | O => PEnd
  | S n' => match cache with
            | Some m => PCall (Did (RetM m)) (gmap_q f cache n')
            | None => fill_q f [] (fun ok m => PCall (if ok then Did (RetM m) else Panicked) (gmap_q f (Some m) n'))
            end
  end.

(** xstream.go:188-191, 211-217, 255-263, 283-289, 312-322: the checks of the argument at the
    start of Split, SplitSteam, Tail, Skip and Limit: whether the operator panics, and if so
    whether it first starts a goroutine that drains the receiver.  (XStreamModel's Split,
    SplitSteam, Tail, Skip and Limit; here as the actions of the caller's side.)  The goroutine
    that drains is started before the panic but runs on its own; it is put after it here. *)
Definition side (b : built A) : option P :=
  match b with
  | BPanic None => Some (PCall Panicked PEnd)
  | BPanic (Some _) => Some (PCall Panicked drain_q)
  | _ => None
  end.
End XQuit.
