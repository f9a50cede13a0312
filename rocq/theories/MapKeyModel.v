(** * xsync/map.go with keys of any kind, used by one goroutine

    As MapSeqModel, but the maps inside (map.go:53, 65) are Go's maps over interface{} keys as in
    MapKeySpec, so that keys that cannot be hashed and keys unequal to themselves are covered, and
    the mutex is explicit.  A call is a program in a monad with state, panics and waiting: what a
    panicking call leaves behind is what it had done up to then.  With one goroutine a
    CompareAndSwap of the value just loaded succeeds. *)
From Coq Require Import List Bool Arith.
From Verif Require Import MapKeySpec.
Import ListNotations.

Section Map.
Context {K V : Type} (geq : K -> K -> bool) (hashable : K -> bool).

(** map.go:69-90; an entry is named by a number; expunged is map.go:25 *)
Inductive eptr := ENil | EExp | EVal (v : V).
Notation gomap := (list (K * nat)).
(** map.go:29-67 *)
Record mp := Mp {
  mu : bool;                 (* m.mu is locked *)
  hp : nat -> eptr;          (* entry.p *)
  nid : nat;                 (* next new entry *)
  rm : gomap;                (* read.m *)
  am : bool;                 (* read.amended *)
  dm : option gomap;         (* dirty; None is the nil map *)
  ms : nat                   (* misses *)
}.
(** The zero value *)
Definition zero_map : mp := Mp false (fun _ => ENil) 0 [] false None 0.

(** A call returns, panics, or waits for a mutex nobody will release. *)
Inductive out (A : Type) := Ret (a : A) | Pan | Wait.
Arguments Ret {A}. Arguments Pan {A}. Arguments Wait {A}.
Definition M (A : Type) : Type := mp -> mp * out A.
Definition ret {A} (a : A) : M A := fun m => (m, Ret a).
Definition bind {A B} (c : M A) (f : A -> M B) : M B :=
  fun m => match c m with (m', Ret a) => f a m' | (m', Pan) => (m', Pan) | (m', Wait) => (m', Wait) end.
Notation "x <- c ; d" := (bind c (fun x => d)) (at level 100, c at next level, right associativity).
Notation "c ;; d" := (bind c (fun _ => d)) (at level 100, right associativity).
(** The fields *)
Definition set_mu b (m : mp) := Mp b (hp m) (nid m) (rm m) (am m) (dm m) (ms m).
Definition lock : M unit := fun m => if mu m then (m, Wait) else (set_mu true m, Ret tt).
Definition unlock : M unit := fun m => (set_mu false m, Ret tt).
Definition eload (e : nat) : M eptr := fun m => (m, Ret (hp m e)).
Definition estore (e : nat) (x : eptr) : M unit :=
  fun m => (Mp (mu m) (fun e' => if Nat.eqb e' e then x else hp m e') (nid m) (rm m) (am m) (dm m) (ms m), Ret tt).
Definition amended : M bool := fun m => (m, Ret (am m)).
Definition set_read (l : gomap) (b : bool) : M unit := fun m => (Mp (mu m) (hp m) (nid m) l b (dm m) (ms m), Ret tt).
Definition get_read : M gomap := fun m => (m, Ret (rm m)).
Definition get_dirty : M (option gomap) := fun m => (m, Ret (dm m)).
Definition set_dirty (d : option gomap) : M unit := fun m => (Mp (mu m) (hp m) (nid m) (rm m) (am m) d (ms m), Ret tt).
Definition set_misses (n : nat) : M unit := fun m => (Mp (mu m) (hp m) (nid m) (rm m) (am m) (dm m) n, Ret tt).
Definition get_misses : M nat := fun m => (m, Ret (ms m)).
(** A lookup, also in a nil or empty map, panics if the key cannot be hashed. *)
Definition lookup (l : gomap) (k : K) : M (option nat) := fun m => (m, if hashable k then Ret (glook geq l k) else Pan).
Definition look_read (k : K) : M (option nat) := l <- get_read; lookup l k.
Definition entries (d : option gomap) : gomap := match d with Some l => l | None => [] end.
Definition look_dirty (k : K) : M (option nat) := d <- get_dirty; lookup (entries d) k.
(** m.dirty[key] = e panics on a nil map. *)
Definition dirty_put (k : K) (e : nat) : M unit :=
  d <- get_dirty; match d with None => fun m => (m, Pan) | Some l => if hashable k then set_dirty (Some (gset geq l k e)) else fun m => (m, Pan) end.
(** delete(m.dirty, key) does nothing to a nil map. *)
Definition dirty_del (k : K) : M unit :=
  d <- get_dirty; if hashable k then set_dirty (match d with Some l => Some (gdel geq l k) | None => None end) else fun m => (m, Pan).

(** map.go:93-95 *)
Definition newEntry (v : V) : M nat :=
  fun m => (Mp (mu m) (fun e => if Nat.eqb e (nid m) then EVal v else hp m e) (S (nid m)) (rm m) (am m) (dm m) (ms m), Ret (nid m)).
(** map.go:125-131 *)
Definition e_load (e : nat) : M (answer V) :=
  x <- eload e; ret (match x with EVal v => (Some v, true) | _ => (None, false) end).
(** map.go:167-177 *)
Definition tryStore (e : nat) (v : V) : M bool :=
  x <- eload e; match x with EExp => ret false | _ => estore e (EVal v);; ret true end.
(** map.go:183-185 and the insertion after it (143-147, 210-212, 280-282, 345-347) *)
Definition unexpunge (k : K) (e : nat) : M unit :=
  x <- eload e; match x with EExp => estore e ENil;; dirty_put k e | _ => ret tt end.
(** map.go:237-262 *)
Definition tryLoadOrStore (e : nat) (v : V) : M (answer V * bool) :=
  x <- eload e;
  match x with
  | EExp => ret ((None, false), false)
  | EVal w => ret ((Some w, true), true)
  | ENil => estore e (EVal v);; ret ((Some v, false), true)
  end.
(** map.go:359-383 *)
Definition tryComputeIfPresent (k : K) (e : nat) (g : K -> V -> V) : M (answer V * bool) :=
  x <- eload e;
  match x with
  | EExp => ret ((None, false), false)
  | ENil => ret ((None, false), true)
  | EVal w => estore e (EVal (g k w));; ret ((Some (g k w), true), true)
  end.
(** map.go:427-437 *)
Definition e_delete (e : nat) : M (answer V) :=
  x <- eload e; match x with EVal v => estore e ENil;; ret (Some v, true) | _ => ret (None, false) end.
(** map.go:482-490 *)
Definition missLocked : M unit :=
  n <- get_misses; set_misses (S n);;
  d <- get_dirty;
  if S n <? length (entries d) then ret tt
  else set_read (entries d) false;; set_dirty None;; set_misses 0.
(** map.go:499-503 with tryExpungeLocked (506-515); the loop runs over the map in the order given *)
Fixpoint copy_live (l : gomap) : M unit :=
  match l with
  | [] => ret tt
  | (k, e) :: l' =>
      x <- eload e;
      (match x with ENil => estore e EExp | EExp => ret tt | EVal _ => dirty_put k e end);; copy_live l'
  end.
(** map.go:492-504; [ord] is the order of this iteration, Go chooses one each time *)
Definition dirtyLocked (ord : gomap -> gomap) : M unit :=
  d <- get_dirty;
  match d with
  | Some _ => ret tt
  | None => l <- get_read; set_dirty (Some []);; copy_live (ord l)
  end.
(** map.go:152-158, 218-224, 288-295: a key found nowhere *)
Definition insert_new (ord : gomap -> gomap) (k : K) (v : V) : M unit :=
  a <- amended;
  (if a then ret tt else dirtyLocked ord;; l <- get_read; set_read l true);;
  e <- newEntry v; dirty_put k e.

(** map.go:100-123 *)
Definition load (k : K) : M (answer V) :=
  o <- look_read k;
  a <- amended;
  o <- (match o with
        | None => if a then lock;; o <- look_read k; a <- amended;
                    o <- (match o with None => if a then o <- look_dirty k; missLocked;; ret o else ret o | _ => ret o end);
                    unlock;; ret o
                  else ret o
        | _ => ret o
        end);
  match o with None => ret (None, false) | Some e => e_load e end.
(** map.go:134-161 *)
Definition store (ord : gomap -> gomap) (k : K) (v : V) : M unit :=
  o <- look_read k;
  b <- (match o with Some e => tryStore e v | None => ret false end);
  if b then ret tt else
  lock;; o <- look_read k;
  (match o with
   | Some e => unexpunge k e;; estore e (EVal v)
   | None =>
       o <- look_dirty k;
       match o with Some e => estore e (EVal v) | None => insert_new ord k v end
   end);; unlock.
(** map.go:197-230 *)
Definition loadOrStore (ord : gomap -> gomap) (k : K) (v : V) : M (answer V) :=
  o <- look_read k;
  r <- (match o with Some e => tryLoadOrStore e v | None => ret ((None, false), false) end);
  if (snd r : bool) then ret (fst r) else
  lock;; o <- look_read k;
  r <- (match o with
        | Some e => unexpunge k e;; r <- tryLoadOrStore e v; ret (fst r)
        | None =>
            o <- look_dirty k;
            match o with
            | Some e => r <- tryLoadOrStore e v; missLocked;; ret (fst r)
            | None => insert_new ord k v;; ret (Some v, false)
            end
        end);
  unlock;; ret r.
(** map.go:269-300 with 302-328: the same with the value computed by f(key) where it is needed; f
    returns and does not use the map *)
Definition computeIfAbsent (ord : gomap -> gomap) (k : K) (f : K -> V) : M (answer V) := loadOrStore ord k (f k).
(** map.go:334-357 *)
Definition computeIfPresent (k : K) (g : K -> V -> V) : M (answer V) :=
  o <- look_read k;
  r <- (match o with Some e => tryComputeIfPresent k e g | None => ret ((None, false), false) end);
  if (snd r : bool) then ret (fst r) else
  lock;; o <- look_read k;
  r <- (match o with
        | Some e => unexpunge k e;; r <- tryComputeIfPresent k e g; ret (fst r)
        | None =>
            o <- look_dirty k;
            match o with
            | Some e => r <- tryComputeIfPresent k e g; missLocked;; ret (fst r)
            | None => ret (None, false)
            end
        end);
  unlock;; ret r.
(** map.go:389-410 *)
Definition loadAndDelete (k : K) : M (answer V) :=
  o <- look_read k;
  a <- amended;
  o <- (match o with
        | None => if a then lock;; o <- look_read k; a <- amended;
                    o <- (match o with None => if a then o <- look_dirty k; dirty_del k;; missLocked;; ret o else ret o | _ => ret o end);
                    unlock;; ret o
                  else ret o
        | _ => ret o
        end);
  match o with None => ret (None, false) | Some e => e_delete e end.
(** map.go:418-425 *)
Definition clear : M unit := lock;; set_read [] false;; set_dirty None;; set_misses 0;; unlock.
(** map.go:454-469, what the loop will run over *)
Definition range_read : M gomap :=
  a <- amended;
  (if a then lock;; a <- amended;
     (if a then d <- get_dirty; set_read (entries d) false;; set_dirty None;; set_misses 0 else ret tt);; unlock
   else ret tt);; get_read.
(** map.go:471-479 with a function that goes on: the pairs it is called with *)
Fixpoint range_loop (h : nat -> eptr) (l : gomap) : list (K * V) :=
  match l with
  | [] => []
  | (k, e) :: l' => match h e with EVal v => (k, v) :: range_loop h l' | _ => range_loop h l' end
  end.
Definition range (ord : gomap -> gomap) : M (list (K * V)) := l <- range_read; fun m => (m, Ret (range_loop (hp m) (ord l))).

(** One call; the pairs are what Range showed. *)
Definition call (ord : gomap -> gomap) (o : kop K V) : M (answer V * list (K * V)) :=
  match o with
  | KLoad k => r <- load k; ret (r, [])
  | KStore k v => store ord k v;; ret (no_answer, [])
  | KLoadOrStore k v => r <- loadOrStore ord k v; ret (r, [])
  | KComputeIfAbsent k f => r <- computeIfAbsent ord k f; ret (r, [])
  | KComputeIfPresent k g => r <- computeIfPresent k g; ret (r, [])
  | KLoadAndDelete k => r <- loadAndDelete k; ret (r, [])
  | KDelete k => loadAndDelete k;; ret (no_answer, [])
  | KClear => clear;; ret (no_answer, [])
  | KRange => p <- range ord; ret (no_answer, p)
  end.
End Map.
Arguments eptr : clear implicits. Arguments mp : clear implicits.
Arguments Ret {A}. Arguments Pan {A}. Arguments Wait {A}.
