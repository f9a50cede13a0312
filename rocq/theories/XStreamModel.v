(** * Model of xstream/xstream.go and xstream/collection.go: operators run by one goroutine

    Each operator starts one goroutine that reads the receiver's channel and writes a new one
    (or, for Sort, Reverse and Group, lets the caller read everything first and then starts
    the goroutine that writes).  It is modelled by the sequence of channel operations and
    callbacks of that goroutine ([proc] of NetModel); Walk, Concat, Copy and their derivatives,
    which use several goroutines or channels, are in FanModel and CopyModel.

    Simplifications, throughout: user callbacks are functions that return (no panic, no side
    effect on the stream); startGoroutine (xstream.go:84-86) always starts the goroutine (the
    ants pool has no limit, line 32); Go maps keyed by interface{} are association lists over
    a key type with decidable equality (unhashable keys, which panic, are left out). *)
From Coq Require Import List Bool Arith ZArith Lia.
From Verif Require Import GoBase Trans NetModel XRingModel.
Import ListNotations.

Open Scope nat_scope.

Section XStream.
Variable A : Type.

(** interface{} values: nil, anything opaque, []interface{}, and *Stream (the items the
    stream will deliver before it closes; only SplitSteam makes such values). *)
Inductive item := INil | IAtom (a : A) | ISlice (l : list item) | IStream (l : list item).

(** Observable actions other than channel operations *)
Inductive call :=
| CallF (x : item)                        (* the user's function is called with x *)
| CloseChunk                              (* SplitSteam closes the chunk it handed out last *)
| RetZ (n : Z) | RetB (b : bool) | RetI (x : option item) | RetU   (* the terminal operation returns; None is ErrNoElement *)
| RetM (m : list (nat * list item)).      (* Group.Map returns a map; keys are represented by numbers *)

Notation P := (proc item call).

(** What calling an operator gives: the receiver itself, a goroutine and the capacity of the
    new channel, the closed stream Empty() with a goroutine left reading the receiver, or a
    panic, possibly with such a goroutine. *)
Inductive built := BSelf | BStage (p : P) (cap : nat) | BEmpty (bg : P) | BPanic (bg : option P).

(** xstream.go:636-639 drain *)
CoFixpoint drain : P := PRecv (fun o => match o with Some _ => drain | None => PEnd end).

(** xstream.go:103-117 Of, for at least one item: capacity n *)
Definition Of (items : list item) : P * nat := (sends items (PClose PEnd), length items).
(** xstream.go:125-132 From: generate sends [sent] and returns; the deferred close follows *)
Definition From (sent : list item) : P * nat := (sends sent (PClose PEnd), 0).
(** xstream.go:37-41, 91-93 Empty: a closed channel without buffer and no goroutine *)
Definition Empty : stage item call := (PEnd, Ch 0 [] true).

(** xstream.go:135-151 Distinct; [unique] is the key set of the map *)
Definition mem (k : nat) (unique : list nat) : bool := existsb (Nat.eqb k) unique.
CoFixpoint distinct (f : item -> nat) (unique : list nat) : P :=
  PRecv (fun o => match o with
    | Some x => let k := f x in
                if negb (mem k unique) then PSend x (distinct f (k :: unique)) else distinct f unique
    | None => PClose PEnd end).
Definition Distinct (f : item -> nat) : built := BStage (distinct f []) 0.

(** xstream.go:154-159 Count; count is an int *)
CoFixpoint count_loop (count : Z) : P :=
  PRecv (fun o => match o with Some _ => count_loop (wrap64 (count + 1)) | None => PCall (RetZ count) PEnd end).
Definition Count : P := count_loop 0.

(** xstream.go:162-175 Buffer *)
CoFixpoint copy_loop : P := PRecv (fun o => match o with Some x => PSend x copy_loop | None => PClose PEnd end).
Definition Buffer (n : Z) : built := let n := if (n <? 0)%Z then 0%Z else n in BStage copy_loop (Z.to_nat n).

(** xstream.go:188-208 Split; the slice [chunk] is nil exactly when it has no item (it is reset
    to nil and only appended to) *)
CoFixpoint split_loop (n : Z) (chunk : list item) : P :=
  PRecv (fun o => match o with
    | Some x => let chunk := chunk ++ [x] in
                if (zlen chunk =? n)%Z then PSend (ISlice chunk) (split_loop n []) else split_loop n chunk
    | None => match chunk with
              | [] => PClose PEnd
              | _ => PSend (ISlice chunk) (PClose PEnd)
              end
    end).
Definition Split (n : Z) : built := if (n <? 1)%Z then BPanic None else BStage (split_loop n []) 0.

(** xstream.go:211-239 SplitSteam; [chunk] is the content of the current chunk's channel, of
    capacity n.  Nobody else has that channel before it is sent, so a send on it blocks for
    ever (PDead) when it is full; after it was sent only close(chunkSource) is applied to it. *)
CoFixpoint splitsteam_loop (n : Z) (chunk : list item) : P :=
  PRecv (fun o => match o with
    | Some x => if (zlen chunk <? n)%Z
                then let chunk := chunk ++ [x] in
                     if (zlen chunk =? n)%Z then PSend (IStream chunk) (PCall CloseChunk (splitsteam_loop n []))
                     else splitsteam_loop n chunk
                else PDead
    | None => if negb (zlen chunk =? 0)%Z then PSend (IStream chunk) (PCall CloseChunk (PClose PEnd))
              else PClose PEnd
    end).
Definition SplitSteam (n : Z) : built := if (n <? 1)%Z then BPanic (Some drain) else BStage (splitsteam_loop n []) 0.

(** xstream.go:242-252 Sort: [slice] stands for what sort.Slice makes of the items; Of(items...)
    (for no item: Empty(), here a goroutine that only closes) *)
Definition Sort (slice : list item -> list item) : P := collect [] (fun items => sends (slice items) (PClose PEnd)).

(** xstream.go:255-280 Tail with xstream/ring.go (XRingModel); a panicking ring is PDead *)
CoFixpoint tail_loop (r : ring item) : P :=
  PRecv (fun o => match o with
    | Some x => match Add r x with Ok r' => tail_loop r' | Panic => PDead end
    | None => match Take r with Ok l => sends l (PClose PEnd) | Panic => PDead end
    end).
Definition Tail (n : Z) : built :=
  if (n <=? 0)%Z then (if (n =? 0)%Z then BEmpty drain else BPanic (Some drain))
  else BStage (tail_loop (newRing INil n)) 0.

(** xstream.go:283-309 Skip; i is an int *)
CoFixpoint skip_loop (size i : Z) : P :=
  PRecv (fun o => match o with
    | Some x => if (i >=? size)%Z then PSend x (skip_loop size (wrap64 (i + 1))) else skip_loop size (wrap64 (i + 1))
    | None => PClose PEnd end).
Definition Skip (size : Z) : built :=
  if (size <? 0)%Z then BPanic (Some drain) else if (size =? 0)%Z then BSelf else BStage (skip_loop size 0) 0.

(** xstream.go:312-343 Limit; size is an int *)
CoFixpoint limit_loop (size : Z) : P :=
  PRecv (fun o => match o with
    | Some x => let size' := wrap64 (size - 1) in
                if (size >? 0)%Z
                then PSend x (if (size' =? 0)%Z then PClose (limit_loop size') else limit_loop size')
                else if (size' =? 0)%Z then PClose (limit_loop size') else limit_loop size'
    | None => if (size >? 0)%Z then PClose PEnd else PEnd
    end).
Definition Limit (size : Z) : built :=
  if (size =? 0)%Z then BEmpty drain else if (size <? 0)%Z then BPanic None else BStage (limit_loop size) 0.

(** xstream.go:346-350 Foreach *)
CoFixpoint foreach_loop : P := PRecv (fun o => match o with Some x => PCall (CallF x) foreach_loop | None => PCall RetU PEnd end).
Definition Foreach : P := foreach_loop.

(** xstream.go:353-362 ForeachOrdered: [for i := n - 1; i >= 0; i--]; k = i + 1 *)
Fixpoint down_loop (items : list item) (k : nat) : P :=
  match k with
  | O => PCall RetU PEnd
  | S i => match nth_error items i with Some x => PCall (CallF x) (down_loop items i) | None => PDead end
  end.
Definition ForeachOrdered : P := collect [] (fun items => down_loop items (length items)).

(** xstream.go:466-482 Group and collection.go:37-47 Group.Map: groups[key] = append(groups[key], item) *)
Fixpoint group_add (k : nat) (x : item) (m : list (nat * list item)) : list (nat * list item) :=
  match m with
  | [] => [(k, [x])]
  | (k', l) :: m' => if k =? k' then (k', l ++ [x]) :: m' else (k', l) :: group_add k x m'
  end.
Definition groups (f : item -> nat) (items : list item) : list (nat * list item) :=
  fold_left (fun m x => group_add (f x) x m) items [].
(** The map is ranged over in the order [ord] puts its entries. *)
Definition Group (ord : list (nat * list item) -> list (nat * list item)) (f : item -> nat) : P :=
  collect [] (fun items => sends (map (fun g => ISlice (snd g)) (ord (groups f items))) (PClose PEnd)).

(** collection.go:27-47: GroupBy, Input, and n calls of Map on the collector; [cache] is
    g.groups, None for nil. *)
Fixpoint gmap_calls (f : item -> nat) (cache : option (list (nat * list item))) (n : nat) : P :=
  match n with
  | O => PEnd
  | S n' => match cache with
            | Some m => PCall (RetM m) (gmap_calls f cache n')
            | None => collect [] (fun items => let m := groups f items in PCall (RetM m) (gmap_calls f (Some m) n'))
            end
  end.
Definition GroupByMap (f : item -> nat) (n : nat) : P := gmap_calls f None n.

(** xstream.go:485-498 Merge: one slice, a nil one for no items *)
Definition Merge : built := BStage (collect [] (fun items => PSend (ISlice items) (PClose PEnd))) 0.

(** xstream.go:501-513 Reverse: [for i := len/2 - 1; i >= 0; i--] swaps items[i] and items[len-1-i]; k = i + 1 *)
Definition swap (l : list item) (i j : nat) : option (list item) :=
  match nth_error l i, nth_error l j with
  | Some a, Some b => Some (list_set (list_set l i b) j a)
  | _, _ => None
  end.
Fixpoint rev_loop (l : list item) (k : nat) : option (list item) :=
  match k with
  | O => Some l
  | S i => match swap l i (length l - 1 - i) with Some l' => rev_loop l' i | None => None end
  end.
Definition Reverse : P :=
  collect [] (fun items => match rev_loop items (Nat.div (length items) 2) with Some l => sends l (PClose PEnd) | None => PDead end).

(** xstream.go:525-537 AnyMach; the rest is drained in the background after the answer *)
CoFixpoint AnyMach (f : item -> bool) : P :=
  PRecv (fun o => match o with
    | Some x => PCall (CallF x) (if f x then PCall (RetB true) drain else AnyMach f)
    | None => PCall (RetB false) PEnd end).
(** xstream.go:542-555 AllMach *)
CoFixpoint AllMach (f : item -> bool) : P :=
  PRecv (fun o => match o with
    | Some x => PCall (CallF x) (if negb (f x) then PCall (RetB false) drain else AllMach f)
    | None => PCall (RetB true) PEnd end).
(** xstream.go:559-570 FindFirst *)
Definition FindFirst : P := PRecv (fun o => match o with Some x => PCall (RetI (Some x)) drain | None => PCall (RetI None) PEnd end).
(** xstream.go:574-585 FindLast; [last] is None while flag is true *)
CoFixpoint findlast_loop (last : option item) : P :=
  PRecv (fun o => match o with Some x => findlast_loop (Some x) | None => PCall (RetI last) PEnd end).
Definition FindLast : P := findlast_loop None.

(** xstream.go:589-600 Peek *)
CoFixpoint peek_loop : P := PRecv (fun o => match o with Some x => PSend x (PCall (CallF x) peek_loop) | None => PClose PEnd end).
Definition Peek : built := BStage peek_loop 0.
End XStream.

Arguments INil {A}. Arguments IAtom {A}. Arguments ISlice {A}. Arguments IStream {A}.
Arguments CallF {A}. Arguments CloseChunk {A}. Arguments RetZ {A}. Arguments RetB {A}. Arguments RetI {A}. Arguments RetU {A}. Arguments RetM {A}.
Arguments BSelf {A}. Arguments BStage {A}. Arguments BEmpty {A}. Arguments BPanic {A}.
Arguments Of {A}. Arguments From {A}. Arguments Empty {A}. Arguments drain {A}.
Arguments Distinct {A}. Arguments distinct {A}. Arguments Count {A}. Arguments count_loop {A}. Arguments copy_loop {A}. Arguments Buffer {A}.
Arguments split_loop {A}. Arguments Split {A}. Arguments splitsteam_loop {A}. Arguments SplitSteam {A}. Arguments Sort {A}.
Arguments tail_loop {A}. Arguments Tail {A}. Arguments skip_loop {A}. Arguments Skip {A}. Arguments limit_loop {A}. Arguments Limit {A}.
Arguments Foreach {A}. Arguments foreach_loop {A}. Arguments down_loop {A}. Arguments ForeachOrdered {A}.
Arguments group_add {A}. Arguments groups {A}. Arguments Group {A}. Arguments gmap_calls {A}. Arguments GroupByMap {A}.
Arguments Merge {A}. Arguments swap {A}. Arguments rev_loop {A}. Arguments Reverse {A}.
Arguments AnyMach {A}. Arguments AllMach {A}. Arguments FindFirst {A}. Arguments findlast_loop {A}. Arguments FindLast {A}.
Arguments Peek {A}. Arguments peek_loop {A}.
