(** * What the calls of xbytes do to shared memory

    The steps of XBytesModel.v, each with the goroutine that makes it and what this goroutine does: it
    reads and writes bytes of slices it holds, puts a slice into a sync.Pool and takes one out.  The
    slice itself (address, length, capacity) is in memory too: Free (pool.go:68-69) and New (54-55) make
    a variable and pass its address; Malloc reads it (41).  [erased] and [raised] in BytesSyncProps.v say
    that these are the steps of XBytesModel.

    sync.Pool by its documentation: "a call to Put(x) synchronizes before a call to Get returning that
    same value x", the same edge as that of a channel on which one value is sent.  What a goroutine does
    when it hands a slice to another one is of that kind as well.
    Left out: the edges between users of sync.Map and singleflight in getOrCreatePool (50-62), which would only
    add to what happens before what; and the zeroing of a new block, to which nobody else has access. *)
From Coq Require Import ZArith List Bool Arith.
From Verif Require Import GoBase XBytesModel SyncSpec.
Import ListNotations.
Open Scope Z_scope.

(** A byte; the n-th variable made at pool.go:54 or 68 *)
Inductive place := PByte (c : cell) | PVar (n : nat).
(** What is seen: Malloc returns or panics; Free is called *)
Inductive bseen := BMalloc (size capacity : Z) (r : res slice_v) | BFree (s : slice_v).
Notation bev := (ev place nat bseen).

(** Who has a slice that is not in a pool: a goroutine, or it is on its way from one to another *)
Inductive holder := HBy (t : nat) | HWay (k : nat).
(** XBytesModel.state with the number of the variable for each pooled slice, the number used so far, and the holders *)
Record bst := BS { bpool : list (nat * (Z * slice_v)); bnum : nat; bfresh : nat; bheap : cell -> Z; blive : list (holder * slice_v) }.
Definition erase (s : bst) : state := St (map snd (bpool s)) (bfresh s) (bheap s) (map snd (blive s)).

(** The labels of XBytesModel, a read, and handing over *)
Inductive blabel := BL (t : nat) (l : label) | BRead (t : nat) (s : slice_v) (i : Z) | BGive (t : nat) (s : slice_v) | BGet (u : nat) (s : slice_v).
Definition cell_at (s : slice_v) (i : Z) : cell := (blk s, off s + i).
Definition held_by (t : nat) (r : res slice_v) (l : list (holder * slice_v)) : list (holder * slice_v) :=
  match r with Ok s => (HBy t, s) :: l | Panic => l end.
(** pool.go:53-56 and 41: a variable for the new slice, unless make panics *)
Definition var_new (t n : nat) (c : Z) : list bev := if c <? 0 then [] else [(t, AWr (PVar n)); (t, ARd (PVar n))].

Inductive bdoes (owned : bool) : bst -> blabel -> bst -> list bev -> Prop :=
(* 39-42, an element of the pool *)
| BReuse : forall t p1 k s p2 n f h l size capacity r, malloc_reuse s size = r ->
    bdoes owned (BS (p1 ++ (k, (malloc_key size capacity, s)) :: p2) n f h l) (BL t (LMalloc size capacity r)) (BS (p1 ++ p2) n f h (held_by t r l))
      [(t, ARecv k); (t, ARd (PVar k)); (t, ALab (BMalloc size capacity r))]
(* 39-42, 53-56 *)
| BNew : forall t p n f h l size capacity r, malloc_new f size capacity = r ->
    bdoes owned (BS p n f h l) (BL t (LMalloc size capacity r)) (BS p (S n) (S f) (zero_block h f) (held_by t r l))
      (var_new t n (malloc_key size capacity) ++ [(t, ALab (BMalloc size capacity r))])
(* 65-70 *)
| BFreeOwned : forall t p n f h l1 s l2,
    bdoes owned (BS p n f h (l1 ++ (HBy t, s) :: l2)) (BL t (LFree s)) (BS ((n, free_entry s) :: p) (S n) f h (l1 ++ l2))
      [(t, ALab (BFree s)); (t, AWr (PVar n)); (t, ASend n)]
| BFreeAny : forall t p n f h l s, owned = false -> (blk s < f)%nat -> 0 <= off s -> 0 <= slen s <= scap s ->
    bdoes owned (BS p n f h l) (BL t (LFree s)) (BS ((n, free_entry s) :: p) (S n) f h l)
      [(t, ALab (BFree s)); (t, AWr (PVar n)); (t, ASend n)]
(* the callers, and sync.Pool losing an element *)
| BDrop : forall t p1 e p2 n f h l, bdoes owned (BS (p1 ++ e :: p2) n f h l) (BL t LPoolDrop) (BS (p1 ++ p2) n f h l) []
| BSplit : forall t p n f h l1 s l2 parts, Forall (fun q => within q s) parts -> pairwise_disjoint parts ->
    bdoes owned (BS p n f h (l1 ++ (HBy t, s) :: l2)) (BL t (LSplit s parts)) (BS p n f h (l1 ++ map (pair (HBy t)) parts ++ l2)) []
| BForget : forall t p n f h l1 s l2, bdoes owned (BS p n f h (l1 ++ (HBy t, s) :: l2)) (BL t (LForget s)) (BS p n f h (l1 ++ l2)) []
| BWrite : forall t p n f h l1 s l2 i v, 0 <= i < slen s ->
    bdoes owned (BS p n f h (l1 ++ (HBy t, s) :: l2)) (BL t (LWrite s i v))
      (BS p n f (fun c => if Nat.eqb (fst c) (blk s) && (snd c =? off s + i) then v else h c) (l1 ++ (HBy t, s) :: l2)) [(t, AWr (PByte (cell_at s i)))]
| BSRead : forall t p n f h l1 s l2 i, 0 <= i < slen s ->
    bdoes owned (BS p n f h (l1 ++ (HBy t, s) :: l2)) (BRead t s i) (BS p n f h (l1 ++ (HBy t, s) :: l2)) [(t, ARd (PByte (cell_at s i)))]
| BSGive : forall t p n f h l1 s l2,
    bdoes owned (BS p n f h (l1 ++ (HBy t, s) :: l2)) (BGive t s) (BS p (S n) f h (l1 ++ (HWay n, s) :: l2)) [(t, ASend n)]
| BSGet : forall u k p n f h l1 s l2,
    bdoes owned (BS p n f h (l1 ++ (HWay k, s) :: l2)) (BGet u s) (BS p n f h (l1 ++ (HBy u, s) :: l2)) [(u, ARecv k)].

Definition bs_step (owned : bool) (s : bst) (l : blabel * list bev) (s' : bst) : Prop := bdoes owned s (fst l) s' (snd l).
Definition bs_acts (s : bst) (l : blabel * list bev) : list bev := snd l.
Definition bs_init (s : bst) : Prop := exists h, s = BS [] 0 0 h [].
(** What XBytesModel sees of a run *)
Definition plain (tr : list (blabel * list bev)) : list label := flat_map (fun l => match fst l with BL _ l => [l] | _ => [] end) tr.
