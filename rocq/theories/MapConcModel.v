(** * Model of xsync/map.go: Map used by any number of goroutines

    Every step is one access to shared memory that other goroutines can see: a load, store
    or CompareAndSwap of an entry's pointer, a load or store of m.read, a lock operation; or
    a piece of work on the fields the mutex protects (m.dirty, m.misses); or a call of user
    code.  Any goroutine that can move may move (sequentially consistent atomics; one
    mutex; memory is reclaimed only when unreachable).  Clear is not here (C55: MapClear, MapClr).

    Maps stored in m.read are never changed after they were stored, so read.m is a value.
    A nested call made by a callback is another goroutine of the model. *)
From Coq Require Import List Bool Lia Arith.
From stdpp Require Import gmap.
From Verif Require Import Trans MapConcSpec.

Section Map.
Context {K : Type} `{Countable K} {V : Type}.
Notation op := (op K V).
Notation res := (res V).
Notation label := (label K V).

(** map.go:69-90: the pointer in an entry: nil, expunged (map.go:25), or a pointer to a value.
    Pointers written into one entry at different times are different: the stamp. *)
Inductive eptr := ENil | EExp | EVal (stamp : nat) (v : V).
(** An entry is named by the key it was made for and a number (a new one for each entry). *)
Definition entry : Type := K * nat.
Definition eptr_val (x : eptr) : option V := match x with EVal _ v => Some v | _ => None end.

(** map.go:29-67 *)
Record mem := Mem {
  heap : entry -> eptr;
  nid : nat;                      (* number of the next entry *)
  nst : entry -> nat;             (* next stamp for the entry *)
  rm : gmap K entry;              (* read.m *)
  am : bool;                      (* read.amended *)
  dm : option (gmap K entry);     (* dirty; None is the nil map *)
  ms : nat;                       (* misses *)
  lk : option nat                 (* mu: the goroutine that has locked it *)
}.
Definition dget (g : mem) (k : K) : option entry := dm g ≫= lookup k.
Definition hset (h : entry -> eptr) (e : entry) (x : eptr) : entry -> eptr := fun e' => if decide (e' = e) then x else h e'.
Definition bump (n : entry -> nat) (e : entry) : entry -> nat := fun e' => if decide (e' = e) then S (n e') else n e'.
(** changes of one field *)
Definition wptr (g : mem) (e : entry) (x : eptr) : mem := Mem (hset (heap g) e x) (nid g) (nst g) (rm g) (am g) (dm g) (ms g) (lk g).
(** an entry's pointer is set to a pointer to v *)
Definition wval (g : mem) (e : entry) (v : V) : mem :=
  Mem (hset (heap g) e (EVal (nst g e) v)) (nid g) (bump (nst g) e) (rm g) (am g) (dm g) (ms g) (lk g).
Definition wdirty (g : mem) (d : option (gmap K entry)) : mem := Mem (heap g) (nid g) (nst g) (rm g) (am g) d (ms g) (lk g).
Definition wlock (g : mem) (l : option nat) : mem := Mem (heap g) (nid g) (nst g) (rm g) (am g) (dm g) (ms g) l.
(** m.read.Store(readOnly{m: read.m, amended: true}), map.go:156, 222, 292 *)
Definition wamend (g : mem) : mem := Mem (heap g) (nid g) (nst g) (rm g) true (dm g) (ms g) (lk g).
(** map.go:487-489 and 462-466: m.read.Store(readOnly{m: m.dirty}); m.dirty = nil; m.misses = 0.
    m.dirty and m.misses are only looked at with the mutex held, so this is one step. *)
Definition promote (g : mem) : mem := Mem (heap g) (nid g) (nst g) (default ∅ (dm g)) false None 0 (lk g).
(** map.go:482-490 *)
Definition missed (g : mem) : mem :=
  if S (ms g) <? size (default ∅ (dm g)) then Mem (heap g) (nid g) (nst g) (rm g) (am g) (dm g) (S (ms g)) (lk g) else promote g.
(** m.dirty[key] = newEntry(value) for a non-nil dirty, map.go:158, 224, 295 *)
Definition wnew (g : mem) (d : gmap K entry) (k : K) (v : V) : mem :=
  Mem (hset (heap g) (k, nid g) (EVal (nst g (k, nid g)) v)) (S (nid g)) (bump (nst g) (k, nid g)) (rm g) (am g) (Some (<[k := (k, nid g)]> d)) (ms g) (lk g).

(** An entry method is called without the lock, or with it; then the flag says that the entry
    came from m.dirty, so that missLocked follows (map.go:213-216, 283-286, 348-351). *)
Inductive mode := Fast | Slow (miss : bool).
(** What comes after the critical section *)
Inductive cont := CRet (r : res) | CEnt (e : entry) | CIter (l : list (K * entry)).

Inductive pc :=
| PIdle
| PStart (o : op)                                     (* before read.Load: 101, 135, 199, 270, 335, 390, 454 *)
| PEnt (o : op) (e : entry) (m : mode)                (* before LoadPointer: 126, 169, 238, 303, 360, 429 *)
| PCall (o : op) (e : entry) (m : mode) (p : eptr)    (* in computeFunc: 314, 368 *)
| PCas (o : op) (e : entry) (m : mode) (p : eptr) (nv : option V) (* before CompareAndSwapPointer from p to nv (None: nil): 173, 251, 317, 372, 433 *)
| PLoop (o : op) (e : entry) (m : mode) (nv : V)      (* before LoadPointer after a failed CAS: 254, 320, 375 *)
| PLock (o : op)                                      (* before mu.Lock *)
| PReread (o : op)                                    (* with the lock, before the second read.Load *)
| PUnexp (o : op) (e : entry)                         (* before unexpungeLocked: 143, 210, 280, 345 *)
| PAddDirty (o : op) (e : entry)                      (* before m.dirty[key] = e: 146, 211, 281, 346 *)
| PStoreL (o : op) (e : entry)                        (* before storeLocked: 148, 150 *)
| PBuild0 (o : op)                                    (* 493: entering dirtyLocked *)
| PBuild (o : op) (l : list (K * entry))              (* 499: entries still to be copied; before LoadPointer 507/512 *)
| PBuildCas (o : op) (k : K) (e : entry) (l : list (K * entry))   (* 509 *)
| PAmend (o : op)                                     (* before read.Store: 156, 222, 292 *)
| PNew (o : op)                                       (* 294: in computeFunc *)
| PIns (o : op) (v : V)                               (* 158, 224, 295 *)
| PMiss (o : op) (c : cont)                           (* before missLocked *)
| PPromote                                            (* 463 *)
| PUnlock (o : op) (c : cont)
| PRet (o : op) (r : res)
| PIter (l : list (K * entry))                        (* 471-473: entries still to be looked at *)
| PVisit (k : K) (v : V) (l : list (K * entry))       (* 476: in f *)
| PDead.                                              (* the goroutine has panicked and holds the mutex *)

(** Continuations of the entry methods.  [ret]: ok = true, or the caller ignores ok.
    [retry]: ok = false. *)
Definition ret (o : op) (m : mode) (r : res) : pc :=
  match m with Fast => PRet o r | Slow true => PMiss o (CRet r) | Slow false => PUnlock o (CRet r) end.
Definition retry (o : op) (m : mode) : pc := match m with Fast => PLock o | _ => ret o m (None, false) end.

(** After the first LoadPointer, x being what it read *)
Definition ent_next (o : op) (e : entry) (m : mode) (x : eptr) : pc :=
  match o, x with
  | OLoad _, _ => PRet o (found (eptr_val x))                          (* 126-130 *)
  | OStore _ v, EExp => PLock o                                        (* 170-172 *)
  | OStore _ v, _ => PCas o e m x (Some v)                             (* 173 *)
  | OLos _ _, EExp | OCia _ _, EExp | OCip _ _, EExp => retry o m      (* 239-241, 304-306, 361-363 *)
  | OLos _ _, EVal _ w | OCia _ _, EVal _ w => ret o m (Some w, true)  (* 242-244, 307-309 *)
  | OLos _ v, ENil => PCas o e m ENil (Some v)                         (* 249-251 *)
  | OCia _ _, ENil => PCall o e m ENil                                 (* 314 *)
  | OCip _ _, ENil => ret o m (None, false)                            (* 364-366 *)
  | OCip _ _, EVal _ _ => PCall o e m x                                (* 367 *)
  | OLad _, EVal _ _ => PCas o e m x None                              (* 433 *)
  | OLad _, _ => PRet o (None, false)                                  (* 430-432 *)
  | ORange, _ | OClear, _ => PIdle                                     (* not used *)
  end.
(** After a successful CompareAndSwap from p to nv *)
Definition cas_next (o : op) (m : mode) (p : eptr) (nv : option V) : pc :=
  match o with
  | OStore _ _ => PRet o unit_res                                      (* 174, 137 *)
  | OLad _ => PRet o (eptr_val p, true)                                (* 434 *)
  | OCip _ _ => ret o m (nv, true)                                     (* 373 *)
  | _ => ret o m (nv, false)                                           (* 252, 318 *)
  end.
(** After a failed one *)
Definition cas_fail (o : op) (e : entry) (m : mode) (nv : option V) : pc :=
  match o, nv with
  | OStore _ _, _ | OLad _, _ => PEnt o e m                            (* 168, 428 *)
  | _, Some v => PLoop o e m v
  | _, None => PIdle                                                   (* not used *)
  end.
(** After the LoadPointer in the loop *)
Definition loop_next (o : op) (e : entry) (m : mode) (nv : V) (x : eptr) : pc :=
  match o, x with
  | OCip _ _, EVal _ _ => PCas o e m x (Some nv)                       (* 371-372 *)
  | OCip _ _, _ => retry o m                                           (* 376-381 *)
  | _, EExp => retry o m                                               (* 255-257, 321-323 *)
  | _, EVal _ w => ret o m (Some w, true)                              (* 258-260, 324-326 *)
  | _, ENil => PCas o e m ENil (Some nv)                               (* 250-251, 316-317 *)
  end.
(** The key was found in read.m and the entry is not expunged any more *)
Definition unexp_next (o : op) (e : entry) : pc :=
  match o with OStore _ _ => PStoreL o e | _ => PEnt o e (Slow false) end.
(** The key is in no map, and dirty is ready *)
Definition new_next (o : op) : pc :=
  match o with OStore _ v | OLos _ v => PIns o v | _ => PNew o end.
Definition ins_res (o : op) (v : V) : res := match o with OStore _ _ => unit_res | _ => (Some v, false) end.
Definition okey (o : op) : option K :=
  match o with OLoad k | OStore k _ | OLos k _ | OCia k _ | OCip k _ | OLad k => Some k | ORange | OClear => None end.
(** Load and LoadAndDelete take the lock only if read.amended (102, 391). *)
Definition reader (o : op) : bool := match o with OLoad _ | OLad _ => true | _ => false end.
(** 406: delete(m.dirty, key) *)
Definition drop_key (o : op) (k : K) (g : mem) : mem := match o with OLad _ => wdirty g (delete k <$> dm g) | _ => g end.
(** the possible answers of computeFunc *)
Definition answers (o : op) (p : eptr) (v : V) : Prop :=
  match o, p with OCia _ F, _ => F v | OCip _ G, EVal _ w => G w v | _, _ => False end.

(** [tstep t g p l g' p']: a step of goroutine t, from memory g at p to g' at p'. *)
Inductive tstep (t : nat) : mem -> pc -> label -> mem -> pc -> Prop :=
| TCall : forall g o, o <> OClear -> tstep t g PIdle (LCall t o) g (PStart o)
(* the first look at m.read *)
| TStartHit : forall g o k e, okey o = Some k -> rm g !! k = Some e -> tstep t g (PStart o) LTau g (PEnt o e Fast)
| TStartMiss : forall g o k, okey o = Some k -> rm g !! k = None -> (reader o = true -> am g = true) ->
    tstep t g (PStart o) LTau g (PLock o)
| TStartNone : forall g o k, okey o = Some k -> rm g !! k = None -> reader o = true -> am g = false ->
    tstep t g (PStart o) LTau g (PRet o (None, false))
| TStartRange : forall g l, am g = false -> l ≡ₚ map_to_list (rm g) -> tstep t g (PStart ORange) LTau g (PIter l)
| TStartRangeLock : forall g, am g = true -> tstep t g (PStart ORange) LTau g (PLock ORange)
(* entry methods *)
| TEnt : forall g o e m, tstep t g (PEnt o e m) LTau g (ent_next o e m (heap g e))
| TComp : forall g o e m p v, answers o p v -> tstep t g (PCall o e m p) (LComp t (eptr_val p) (Some v)) g (PCas o e m p (Some v))
| TCompPanic : forall g o e m p,
    tstep t g (PCall o e m p) (LComp t (eptr_val p) None) g (match m with Fast => PIdle | _ => PDead end)
| TCasOk : forall g o e m p nv, heap g e = p ->
    tstep t g (PCas o e m p nv) LTau (match nv with Some v => wval g e v | None => wptr g e ENil end) (cas_next o m p nv)
| TCasFail : forall g o e m p nv, heap g e <> p -> tstep t g (PCas o e m p nv) LTau g (cas_fail o e m nv)
| TLoop : forall g o e m nv, tstep t g (PLoop o e m nv) LTau g (loop_next o e m nv (heap g e))
(* with the lock *)
| TLock : forall g o, lk g = None -> tstep t g (PLock o) LTau (wlock g (Some t)) (PReread o)
| TReHit : forall g o k e, okey o = Some k -> rm g !! k = Some e ->
    tstep t g (PReread o) LTau g (if reader o then PUnlock o (CEnt e) else PUnexp o e)
| TReNone : forall g o k, okey o = Some k -> rm g !! k = None -> reader o = true -> am g = false ->   (* 102-103, 391-392 again *)
    tstep t g (PReread o) LTau g (PUnlock o (CRet (None, false)))
| TReMiss : forall g o k, okey o = Some k -> rm g !! k = None -> reader o = true -> am g = true ->    (* 111-115, 395-400 *)
    tstep t g (PReread o) LTau (drop_key o k g) (PMiss o (match dget g k with Some e => CEnt e | None => CRet (None, false) end))
| TReDirty : forall g o k e, okey o = Some k -> rm g !! k = None -> reader o = false -> dget g k = Some e -> (* 149, 213, 283, 348 *)
    tstep t g (PReread o) LTau g (match o with OStore _ _ => PStoreL o e | _ => PEnt o e (Slow true) end)
| TReAbsent : forall g k G, rm g !! k = None -> dget g k = None ->                                    (* 352 *)
    tstep t g (PReread (OCip k G)) LTau g (PUnlock (OCip k G) (CRet (None, false)))
| TReNew : forall g o k, okey o = Some k -> rm g !! k = None -> reader o = false -> (forall k G, o <> OCip k G) -> dget g k = None ->
    tstep t g (PReread o) LTau g (if am g then new_next o else PBuild0 o)                             (* 152, 218, 288 *)
| TReRange : forall g l, am g = false -> l ≡ₚ map_to_list (rm g) -> tstep t g (PReread ORange) LTau g (PUnlock ORange (CIter l))
| TReRangeAm : forall g, am g = true -> tstep t g (PReread ORange) LTau g PPromote
| TUnexpYes : forall g o e, heap g e = EExp -> tstep t g (PUnexp o e) LTau (wptr g e ENil) (PAddDirty o e)
| TUnexpNo : forall g o e, heap g e <> EExp -> tstep t g (PUnexp o e) LTau g (unexp_next o e)
| TAddDirty : forall g o e d, dm g = Some d -> tstep t g (PAddDirty o e) LTau (wdirty g (Some (<[fst e := e]> d))) (unexp_next o e)
| TAddDirtyNil : forall g o e, dm g = None -> tstep t g (PAddDirty o e) (LCrash t) g PDead
| TStoreL : forall g k v e, tstep t g (PStoreL (OStore k v) e) LTau (wval g e v) (PUnlock (OStore k v) (CRet unit_res))
| TBuildSkip : forall g o, dm g <> None -> tstep t g (PBuild0 o) LTau g (PAmend o)                    (* 493-495 *)
| TBuildMake : forall g o l, dm g = None -> l ≡ₚ map_to_list (rm g) ->                                (* 497-499 *)
    tstep t g (PBuild0 o) LTau (wdirty g (Some ∅)) (PBuild o l)
| TBuildNil : forall g o k e l, heap g e = ENil -> tstep t g (PBuild o ((k, e) :: l)) LTau g (PBuildCas o k e l)
| TBuildExp : forall g o k e l, heap g e = EExp -> tstep t g (PBuild o ((k, e) :: l)) LTau g (PBuild o l)
| TBuildVal : forall g o k e l s v d, heap g e = EVal s v -> dm g = Some d ->
    tstep t g (PBuild o ((k, e) :: l)) LTau (wdirty g (Some (<[k := e]> d))) (PBuild o l)
| TBuildCas : forall g o k e l, heap g e = ENil -> tstep t g (PBuildCas o k e l) LTau (wptr g e EExp) (PBuild o l)
| TBuildCasFail : forall g o k e l, heap g e <> ENil -> tstep t g (PBuildCas o k e l) LTau g (PBuild o ((k, e) :: l))
| TBuildEnd : forall g o, tstep t g (PBuild o []) LTau g (PAmend o)
| TAmend : forall g o, tstep t g (PAmend o) LTau (wamend g) (new_next o)
| TNew : forall g o v, answers o ENil v -> tstep t g (PNew o) (LComp t None (Some v)) g (PIns o v)
| TNewPanic : forall g o, tstep t g (PNew o) (LComp t None None) g PDead
| TIns : forall g o k v d, okey o = Some k -> dm g = Some d -> tstep t g (PIns o v) LTau (wnew g d k v) (PUnlock o (CRet (ins_res o v)))
| TInsNil : forall g o v, dm g = None -> tstep t g (PIns o v) (LCrash t) g PDead
| TMiss : forall g o c, tstep t g (PMiss o c) LTau (missed g) (PUnlock o c)
| TPromote : forall g l, l ≡ₚ map_to_list (default ∅ (dm g)) -> tstep t g PPromote LTau (promote g) (PUnlock ORange (CIter l))
| TUnlock : forall g o c, tstep t g (PUnlock o c) LTau (wlock g None)
    (match c with CRet r => PRet o r | CEnt e => PEnt o e Fast | CIter l => PIter l end)
| TRet : forall g o r, tstep t g (PRet o r) (LRet t o r) g PIdle
(* the loop of Range *)
| TIterVal : forall g k e l s v, heap g e = EVal s v -> tstep t g (PIter ((k, e) :: l)) LTau g (PVisit k v l)
| TIterSkip : forall g k e l, eptr_val (heap g e) = None -> tstep t g (PIter ((k, e) :: l)) LTau g (PIter l)
| TIterEnd : forall g, tstep t g (PIter []) LTau g (PRet ORange unit_res)
| TVisit : forall g k v l b, tstep t g (PVisit k v l) (LVisit t k v (Some b)) g (if b then PIter l else PRet ORange unit_res)
| TVisitPanic : forall g k v l, tstep t g (PVisit k v l) (LVisit t k v None) g PIdle.

Record st := St { mm : mem; pcs : nat -> pc }.
Inductive cstep : st -> label -> st -> Prop :=
| CStep : forall g p t l g' p', tstep t g (p t) l g' p' -> cstep (St g p) l (St g' (upd p t p')).

(** The zero Map: m.read holds nothing, which read.Load().(readOnly) turns into the zero readOnly *)
Definition mem0 : mem := Mem (fun _ => ENil) 0 (fun _ => 0) ∅ false None 0 None.
Definition cinit (s : st) : Prop := mm s = mem0 /\ forall t, pcs s t = PIdle.
End Map.
Arguments eptr : clear implicits. Arguments entry : clear implicits. Arguments mem K {_ _} V.
Arguments pc : clear implicits. Arguments cont : clear implicits. Arguments st K {_ _} V.
