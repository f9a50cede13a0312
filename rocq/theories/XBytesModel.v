(** * Model of xbytes/pool.go

    A slice is a window into an allocated block.  The pool map keeps one sync.Pool per
    capacity (pool.go:50-62: getOrCreatePool returns the unique pool of that key, which
    is C87).  sync.Pool may return any
    element put earlier, call New, or lose elements at any moment. *)
From Coq Require Import ZArith List Bool Lia.
From Verif Require Import GoBase.
Import ListNotations.
Open Scope Z_scope.

(** A []byte value: block, offset of its first byte in the block, len, cap. *)
Record slice_v := SL { blk : nat; off : Z; slen : Z; scap : Z }.

(** The byte cells a slice can reach (through append or reslicing): its capacity. *)
Definition cell := (nat * Z)%type.
Definition owns (s : slice_v) (c : cell) : Prop := fst c = blk s /\ off s <= snd c < off s + scap s.
(** The cells visible as s[0..len-1]. *)
Definition shows (s : slice_v) (c : cell) : Prop := fst c = blk s /\ off s <= snd c < off s + slen s.

(** s[a:b] keeps the capacity to the end; panics unless 0 <= a <= b <= cap. *)
Definition reslice (s : slice_v) (a b : Z) : res slice_v :=
  if (0 <=? a) && (a <=? b) && (b <=? scap s)
  then Ok (SL (blk s) (off s + a) (b - a) (scap s - a)) else Panic.

Record state := St {
  pool : list (Z * slice_v);  (* pooled slices with the key of their pool *)
  fresh : nat;                (* blocks allocated so far *)
  heap : cell -> Z;           (* memory contents *)
  live : list slice_v         (* slices callers hold *)
}.

Definition zero_block (h : cell -> Z) (b : nat) : cell -> Z := fun c => if Nat.eqb (fst c) b then 0 else h c.

(** pool.go:33-39: which pool Malloc uses *)
Definition malloc_key (size capacity : Z) : Z := if size <? capacity then capacity else size.

(** make([]byte, 0, c) panics for c < 0 (pool.go:54). *)
Definition make_empty (b : nat) (c : Z) : res slice_v := if c <? 0 then Panic else Ok (SL b 0 0 c).

(** Malloc with the pool handing out a recycled slice (pool.go:39-42): the slice it points to, [:size] *)
Definition malloc_reuse (s : slice_v) (size : Z) : res slice_v := reslice s 0 size.
(** Malloc with the pool calling New (pool.go:53-56) *)
Definition malloc_new (b : nat) (size capacity : Z) : res slice_v :=
  res_bind (make_empty b (malloc_key size capacity)) (fun s => reslice s 0 size).

(** MallocSize, pool.go:46-48 *)
Definition mallocsize_key (size : Z) : Z := malloc_key size size.

(** What Free puts (pool.go:65-70): key cap(buf), value buf[:0]. *)
Definition free_entry (s : slice_v) : Z * slice_v := (scap s, SL (blk s) (off s) 0 (scap s)).

Inductive label :=
| LMalloc (size capacity : Z) (r : res slice_v)
| LFree (s : slice_v)
| LPoolDrop
| LSplit (s : slice_v) (parts : list slice_v)
| LForget (s : slice_v)
| LWrite (s : slice_v) (i v : Z).

(** Callers may split a slice they hold into parts with disjoint capacity windows
    (three-index slicing), forget slices, and write into what they hold. *)
Definition within (p s : slice_v) : Prop :=
  blk p = blk s /\ off s <= off p /\ 0 <= slen p <= scap p /\ off p + scap p <= off s + scap s.
Definition disjoint (a b : slice_v) : Prop := forall c, owns a c -> owns b c -> False.
Fixpoint pairwise_disjoint (l : list slice_v) : Prop :=
  match l with [] => True | x :: l' => Forall (disjoint x) l' /\ pairwise_disjoint l' end.

(** [owned = true]: callers free only what they hold, giving it up.
    [owned = false]: Free may be called with any slice at all (also twice). *)
Inductive step (owned : bool) : state -> label -> state -> Prop :=
| SReuse : forall p1 s p2 f h l size capacity r,
    malloc_reuse s size = r ->
    step owned (St (p1 ++ (malloc_key size capacity, s) :: p2) f h l)
      (LMalloc size capacity r)
      (St (p1 ++ p2) f h (match r with Ok s' => s' :: l | Panic => l end))
| SNew : forall p f h l size capacity r,
    malloc_new f size capacity = r ->
    step owned (St p f h l) (LMalloc size capacity r)
      (St p (S f) (zero_block h f) (match r with Ok s' => s' :: l | Panic => l end))
| SFreeOwned : forall p f h l1 s l2,
    step owned (St p f h (l1 ++ s :: l2)) (LFree s) (St (free_entry s :: p) f h (l1 ++ l2))
| SFreeAny : forall p f h l s, owned = false -> (blk s < f)%nat -> 0 <= off s -> 0 <= slen s <= scap s ->
    step owned (St p f h l) (LFree s) (St (free_entry s :: p) f h l)
| SDrop : forall p1 e p2 f h l, step owned (St (p1 ++ e :: p2) f h l) LPoolDrop (St (p1 ++ p2) f h l)
| SSplit : forall p f h l1 s l2 parts,
    Forall (fun q => within q s) parts -> pairwise_disjoint parts ->
    step owned (St p f h (l1 ++ s :: l2)) (LSplit s parts) (St p f h (l1 ++ parts ++ l2))
| SForget : forall p f h l1 s l2,
    step owned (St p f h (l1 ++ s :: l2)) (LForget s) (St p f h (l1 ++ l2))
| SWrite : forall p f h l1 s l2 i v, 0 <= i < slen s ->
    step owned (St p f h (l1 ++ s :: l2)) (LWrite s i v)
      (St p f (fun c => if Nat.eqb (fst c) (blk s) && (snd c =? off s + i) then v else h c) (l1 ++ s :: l2)).

Definition init (s : state) : Prop := exists h, s = St [] 0 h [].
