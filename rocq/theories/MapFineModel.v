(** * Model of xsync/map.go, access by access

    The functions of the file written out as programs whose every instruction is one access to shared
    memory, in the order of the source.  Unlike in MapConcModel and MapAnyModel, Go's maps are objects
    that m.read, m.dirty and the local variables point to, and the work done with the lock held is not
    done at once.  Keys are compared with [geq] and hashed as in MapAnyModel.  Each instruction also
    says which accesses it makes, for C100.

    Simplifications: the cell &value an entry points to is named by its entry and a stamp, as in
    MapConcModel, and the plain write that fills it is put next to the step that makes the entry point
    to it; before that only the goroutine itself can reach it.  The struct readOnly in m.read is read
    and written with it.  Any calls, including those a callback makes, are those of some goroutine. *)
From Coq Require Import List Bool Arith Permutation.
From Verif Require Import Trans RaceSpec MapConcSpec MapConcModel MapKeySpec.
Import ListNotations.

Section Fine.
Context {K V : Type} (geq : K -> K -> bool) (hashable : K -> bool).
Notation op := (op K V).
Notation label := (label K V).
Notation eptr := (eptr V).
Notation entry := (entry K).
Notation gomap := (list (K * entry)).
Notation res := (option V * bool)%type.

(** readOnly, map.go:64-67: m is a map object or nil *)
Definition ro : Type := (option nat * bool)%type.
(** what a compare-and-swap of entry.p writes *)
Inductive nptr := WNil | WExp | WVal (v : V).

(** Places in memory *)
Inductive loc :=
| LRead                        (* m.read *)
| LDirty | LMisses             (* m.dirty, m.misses *)
| LMap (m : nat)               (* a Go map *)
| LEnt (n : nat)               (* entry.p *)
| LCell (n s : nat).           (* the interface{} an entry's p points to *)
Notation act := (act loc label).
Notation ev := (ev loc label).

(** A program: an instruction and what follows, which may depend on the instruction's result *)
CoInductive prog :=
| IStop                                                        (* between two calls *)
| IDead                                                        (* a panic has left m.mu locked *)
| ILoadRead (k : ro -> prog)                                   (* read, _ := m.read.Load().(readOnly) *)
| IStoreRead (r : ro) (k : prog)                               (* m.read.Store(r) *)
| IZeroRead (k : prog)                                         (* m.read = atomic.Value{} *)
| ILock (k : prog) | IUnlock (k : prog)                        (* m.mu *)
| IGetDirty (k : option nat -> prog)                           (* m.dirty as an operand *)
| INilDirty (k : prog)                                         (* m.dirty = nil *)
| IMakeDirty (k : prog)                                        (* m.dirty = make(map[interface{}]*entry, n) *)
| IGetMisses (k : nat -> prog) | ISetMisses (n : nat) (k : prog)
| ILook (m : option nat) (key : K) (k : option entry -> prog)  (* e, ok := m[key] *)
| IPut (m : option nat) (key : K) (e : entry) (k : prog)       (* m[key] = e *)
| IDel (m : option nat) (key : K) (k : prog)                   (* delete(m, key) *)
| ILen (m : option nat) (k : nat -> prog)                      (* len(m) *)
| IIter (m : option nat) (k : gomap -> prog)                   (* range m begins: the pairs in the order it takes *)
| INext (m : option nat) (k : prog)                            (* range m goes on *)
| ILoadP (e : entry) (k : eptr -> prog)                        (* atomic.LoadPointer(&e.p) *)
| IStoreP (e : entry) (v : V) (k : prog)                       (* atomic.StorePointer(&e.p, &v) *)
| ICas (e : entry) (p : eptr) (n : nptr) (k : bool -> prog)    (* atomic.CompareAndSwapPointer(&e.p, p, n) *)
| INewEntry (key : K) (v : V) (k : entry -> prog)              (* newEntry(v) *)
| IDeref (e : entry) (s : nat) (v : V) (k : prog)              (* reading what p points to, p being the cell s of e, which holds v *)
| ICompute (o : op) (p : eptr) (k : V -> prog)                 (* computeFunc(key) or computeFunc(key, *p) *)
| IVisit (key : K) (v : V) (k : bool -> prog)                  (* f(k, v) *)
| IReturn (o : op) (r : res).

(** ** The functions *)

(** map.go:125-131 *)
Definition e_load (e : entry) (k : option V -> prog) : prog :=
  ILoadP e (fun p => match p with EVal s v => IDeref e s v (k (Some v)) | _ => k None end).
(** map.go:166-176 *)
CoFixpoint try_store (e : entry) (v : V) (k : bool -> prog) : prog :=
  ILoadP e (fun p => match p with EExp => k false | _ => ICas e p (WVal v) (fun ok => if ok then k true else try_store e v k) end).
(** map.go:182-184, and what the callers do with its result: 140-144, 209-211, 279-281, 344-346 *)
Definition unexpunge (key : K) (e : entry) (k : prog) : prog :=
  ICas e EExp WNil (fun was => if was then IGetDirty (fun d => IPut d key e k) else k).
(** map.go:250-263 and 316-329: the loop that puts the value in an entry that holds nil.  The result
    is (actual, loaded), or None when ok is false. *)
CoFixpoint los_loop (e : entry) (v : V) (k : option res -> prog) : prog :=
  ICas e ENil (WVal v) (fun ok => if ok then k (Some (Some v, false)) else
    ILoadP e (fun p => match p with EExp => k None | EVal s w => IDeref e s w (k (Some (Some w, true))) | ENil => los_loop e v k end)).
(** map.go:237-263 *)
Definition try_los (e : entry) (v : V) (k : option res -> prog) : prog :=
  ILoadP e (fun p => match p with EExp => k None | EVal s w => IDeref e s w (k (Some (Some w, true))) | ENil => los_loop e v k end).
(** map.go:301-329 *)
Definition try_cia (o : op) (e : entry) (k : option res -> prog) : prog :=
  ILoadP e (fun p => match p with
    | EExp => k None
    | EVal s w => IDeref e s w (k (Some (Some w, true)))
    | ENil => ICompute o ENil (fun v => los_loop e v k) end).
(** map.go:371-381 *)
CoFixpoint cip_loop (e : entry) (p : eptr) (v : V) (k : option res -> prog) : prog :=
  ICas e p (WVal v) (fun ok => if ok then k (Some (Some v, true)) else
    ILoadP e (fun q => match q with EVal _ _ => cip_loop e q v k | _ => k None end)).
(** map.go:360-383 *)
Definition try_cip (o : op) (e : entry) (k : option res -> prog) : prog :=
  ILoadP e (fun p => match p with
    | EExp => k None
    | ENil => k (Some (None, false))
    | EVal s w => IDeref e s w (ICompute o p (fun v => cip_loop e p v k)) end).
(** map.go:427-437 *)
CoFixpoint e_delete (e : entry) (k : option V -> prog) : prog :=
  ILoadP e (fun p => match p with
    | EVal s v => ICas e p WNil (fun ok => if ok then IDeref e s v (k (Some v)) else e_delete e k)
    | _ => k None end).
(** map.go:487-489 and 463-466 *)
Definition promote (d : option nat) (k : prog) : prog := IStoreRead (d, false) (INilDirty (ISetMisses 0 k)).
(** map.go:482-490 *)
Definition miss_locked (k : prog) : prog :=
  IGetMisses (fun n => ISetMisses (S n) (IGetMisses (fun n => IGetDirty (fun d => ILen d (fun len =>
    if n <? len then k else IGetDirty (fun d => promote d k)))))).
(** map.go:507-516 *)
CoFixpoint try_expunge (e : entry) (k : bool -> prog) : prog :=
  ILoadP e (fun p => match p with
    | ENil => ICas e ENil WExp (fun ok => if ok then k true else try_expunge e k)
    | EExp => k true
    | EVal _ _ => k false end).
(** map.go:500-504 *)
Fixpoint dirty_loop (m : option nat) (l : gomap) (k : prog) : prog :=
  match l with
  | [] => INext m k
  | (key, e) :: l => INext m (try_expunge e (fun b => if b then dirty_loop m l k else IGetDirty (fun d => IPut d key e (dirty_loop m l k))))
  end.
(** map.go:492-505 *)
Definition dirty_locked (k : prog) : prog :=
  IGetDirty (fun d => match d with
    | Some _ => k
    | None => ILoadRead (fun read => ILen (fst read) (fun _ => IMakeDirty (IIter (fst read) (fun l => dirty_loop (fst read) l k))))
    end).
(** map.go:152-157, 218-223, 288-293 *)
Definition make_room (read : ro) (k : prog) : prog :=
  if snd read then k else dirty_locked (IStoreRead (fst read, true) k).
(** m.dirty[key] = newEntry(value), map.go:158, 224, 295 *)
Definition insert (key : K) (v : V) (k : prog) : prog := INewEntry key v (fun e => IGetDirty (fun d => IPut d key e k)).
Definition unlock_return (o : op) (r : res) : prog := IUnlock (IReturn o r).
(** actual, loaded, _ = e.tryX(...): without ok the results are nil and false *)
Definition res_of (r : option res) : res := match r with Some x => x | None => (None, false) end.

(** Load and LoadAndDelete up to the entry: map.go:101-118 and 390-405 *)
Definition find (o : op) (key : K) (k : option entry -> prog) : prog :=
  ILoadRead (fun read => ILook (fst read) key (fun r => match r with
    | Some e => k (Some e)
    | None => if snd read
        then ILock (ILoadRead (fun read => ILook (fst read) key (fun r => match r with
          | Some e => IUnlock (k (Some e))
          | None => if snd read
              then IGetDirty (fun d => ILook d key (fun r => match o with
                | OLad _ => IGetDirty (fun d => IDel d key (miss_locked (IUnlock (k r))))
                | _ => miss_locked (IUnlock (k r)) end))
              else IUnlock (k None) end)))
        else k None end)).
(** The fast path and the beginning of the slow path of the four others: map.go:135-150 and so on *)
Definition both_ways (o : op) (key : K) (fast : entry -> prog -> prog) (hit found : entry -> prog) (absent : ro -> prog) : prog :=
  let slow := ILock (ILoadRead (fun read => ILook (fst read) key (fun r => match r with
    | Some e => unexpunge key e (hit e)
    | None => IGetDirty (fun d => ILook d key (fun r => match r with Some e => found e | None => absent read end)) end))) in
  ILoadRead (fun read => ILook (fst read) key (fun r => match r with Some e => fast e slow | None => slow end)).
(** the use of tryX in the fast and in the slow path: map.go:201-206, 212, 214-215 and so on *)
Definition try_fast (o : op) (try : entry -> (option res -> prog) -> prog) (e : entry) (slow : prog) : prog :=
  try e (fun r => match r with Some x => IReturn o x | None => slow end).
Definition try_hit (o : op) (try : entry -> (option res -> prog) -> prog) (e : entry) : prog :=
  try e (fun r => unlock_return o (res_of r)).
Definition try_found (o : op) (try : entry -> (option res -> prog) -> prog) (e : entry) : prog :=
  try e (fun r => miss_locked (unlock_return o (res_of r))).

(** map.go:470-478 *)
Fixpoint range_loop (m : option nat) (l : gomap) : prog :=
  match l with
  | [] => INext m (IReturn ORange unit_res)
  | (key, e) :: l => INext m (e_load e (fun r => match r with
      | None => range_loop m l
      | Some v => IVisit key v (fun b => if b then range_loop m l else IReturn ORange unit_res) end))
  end.
Definition range_from (m : option nat) : prog := IIter m (range_loop m).

(** The calls *)
Definition code (o : op) : prog :=
  match o with
  (* map.go:100-123 *)
  | OLoad key => find o key (fun r => match r with
      | Some e => e_load e (fun v => IReturn o (found v))
      | None => IReturn o (None, false) end)
  (* map.go:134-160 *)
  | OStore key v => both_ways o key
      (fun e slow => try_store e v (fun ok => if ok then IReturn o unit_res else slow))
      (fun e => IStoreP e v (unlock_return o unit_res))
      (fun e => IStoreP e v (unlock_return o unit_res))
      (fun read => make_room read (insert key v (unlock_return o unit_res)))
  (* map.go:197-230 *)
  | OLos key v => both_ways o key (try_fast o (fun e => try_los e v)) (try_hit o (fun e => try_los e v)) (try_found o (fun e => try_los e v))
      (fun read => make_room read (insert key v (unlock_return o (Some v, false))))
  (* map.go:269-299 *)
  | OCia key _ => both_ways o key (try_fast o (try_cia o)) (try_hit o (try_cia o)) (try_found o (try_cia o))
      (fun read => make_room read (ICompute o ENil (fun v => insert key v (unlock_return o (Some v, false)))))
  (* map.go:334-357 *)
  | OCip key _ => both_ways o key (try_fast o (try_cip o)) (try_hit o (try_cip o)) (try_found o (try_cip o))
      (fun _ => unlock_return o (None, false))
  (* map.go:389-410 *)
  | OLad key => find o key (fun r => match r with
      | Some e => e_delete e (fun v => IReturn o (found v))
      | None => IReturn o (None, false) end)
  (* map.go:449-479 *)
  | ORange => ILoadRead (fun read => if snd read
      then ILock (ILoadRead (fun read => if snd read
        then IGetDirty (fun d => promote d (IUnlock (range_from d)))
        else IUnlock (range_from (fst read))))
      else range_from (fst read))
  (* map.go:418-425 *)
  | OClear => ILock (IZeroRead (INilDirty (ISetMisses 0 (unlock_return o unit_res))))
  end.

(** ** What the instructions do *)

(** map.go:29-67 *)
Record fmem := FMem {
  fheap : nat -> eptr;      (* entry.p, by the entry's number *)
  fnid : nat;               (* number of the next entry *)
  fnst : nat -> nat;        (* next stamp for the entry *)
  fmaps : nat -> gomap;     (* what each map object holds *)
  fnmap : nat;              (* number of the next map object *)
  fread : ro;
  fdirty : option nat;      (* None is the nil map *)
  fmiss : nat;
  flk : option nat          (* mu: the goroutine that has locked it *)
}.
Definition fval (g : fmem) (e : entry) : eptr := fheap g (snd e).
Definition fpairs (g : fmem) (m : option nat) : gomap := match m with Some i => fmaps g i | None => [] end.
(** changes of one field *)
Definition fwptr (g : fmem) (e : entry) (x : eptr) : fmem :=
  FMem (upd (fheap g) (snd e) x) (fnid g) (fnst g) (fmaps g) (fnmap g) (fread g) (fdirty g) (fmiss g) (flk g).
Definition fwval (g : fmem) (n : nat) (v : V) : fmem :=
  FMem (upd (fheap g) n (EVal (fnst g n) v)) (fnid g) (upd (fnst g) n (S (fnst g n))) (fmaps g) (fnmap g) (fread g) (fdirty g) (fmiss g) (flk g).
(** newEntry, map.go:93-95 *)
Definition fwnew (g : fmem) (v : V) : fmem :=
  FMem (upd (fheap g) (fnid g) (EVal (fnst g (fnid g)) v)) (S (fnid g)) (upd (fnst g) (fnid g) (S (fnst g (fnid g))))
    (fmaps g) (fnmap g) (fread g) (fdirty g) (fmiss g) (flk g).
Definition fwmap (g : fmem) (i : nat) (l : gomap) : fmem :=
  FMem (fheap g) (fnid g) (fnst g) (upd (fmaps g) i l) (fnmap g) (fread g) (fdirty g) (fmiss g) (flk g).
Definition fwmake (g : fmem) : fmem :=
  FMem (fheap g) (fnid g) (fnst g) (upd (fmaps g) (fnmap g) []) (S (fnmap g)) (fread g) (Some (fnmap g)) (fmiss g) (flk g).
Definition fwread (g : fmem) (r : ro) : fmem :=
  FMem (fheap g) (fnid g) (fnst g) (fmaps g) (fnmap g) r (fdirty g) (fmiss g) (flk g).
Definition fwdirty (g : fmem) (d : option nat) : fmem :=
  FMem (fheap g) (fnid g) (fnst g) (fmaps g) (fnmap g) (fread g) d (fmiss g) (flk g).
Definition fwmiss (g : fmem) (n : nat) : fmem :=
  FMem (fheap g) (fnid g) (fnst g) (fmaps g) (fnmap g) (fread g) (fdirty g) n (flk g).
Definition fwlock (g : fmem) (l : option nat) : fmem :=
  FMem (fheap g) (fnid g) (fnst g) (fmaps g) (fnmap g) (fread g) (fdirty g) (fmiss g) l.

(** the access of an operation on a map that only reads it; the nil map is no memory *)
Definition map_read (m : option nat) : list act := match m with Some i => [ARd (LMap i) false] | None => [] end.
(** A panic: the goroutine leaves the call; m.mu stays locked if it had locked it *)
Definition after_panic (t : nat) (g : fmem) : prog := match flk g with Some u => if u =? t then IDead else IStop | None => IStop end.

(** [fstep1 t g p l g' p']: an instruction of goroutine t, the accesses it makes and what it changes *)
Inductive fstep1 (t : nat) : fmem -> prog -> list act -> fmem -> prog -> Prop :=
| FCall : forall g o, fstep1 t g IStop [ALab (LCall t o)] g (code o)
| FLoadRead : forall g k, fstep1 t g (ILoadRead k) [ARd LRead true] g (k (fread g))
| FStoreRead : forall g r k, fstep1 t g (IStoreRead r k) [AWr LRead true] (fwread g r) k
| FZeroRead : forall g k, fstep1 t g (IZeroRead k) [AWr LRead false] (fwread g (None, false)) k
| FLock : forall g k, flk g = None -> fstep1 t g (ILock k) [ALock] (fwlock g (Some t)) k
| FUnlock : forall g k, fstep1 t g (IUnlock k) [AUnlock] (fwlock g None) k
| FGetDirty : forall g k, fstep1 t g (IGetDirty k) [ARd LDirty false] g (k (fdirty g))
| FNilDirty : forall g k, fstep1 t g (INilDirty k) [AWr LDirty false] (fwdirty g None) k
| FMakeDirty : forall g k, fstep1 t g (IMakeDirty k) [AWr LDirty false] (fwmake g) k
| FGetMisses : forall g k, fstep1 t g (IGetMisses k) [ARd LMisses false] g (k (fmiss g))
| FSetMisses : forall g n k, fstep1 t g (ISetMisses n k) [AWr LMisses false] (fwmiss g n) k
| FLook : forall g m key k, hashable key = true -> fstep1 t g (ILook m key k) (map_read m) g (k (glook geq (fpairs g m) key))
(* a key that cannot be hashed *)
| FLookBad : forall g m key k, hashable key = false -> fstep1 t g (ILook m key k) [ALab (LCrash t)] g (after_panic t g)
| FPut : forall g i key e k, fstep1 t g (IPut (Some i) key e k) [AWr (LMap i) false] (fwmap g i (gset geq (fmaps g i) key e)) k
| FPutNil : forall g key e k, fstep1 t g (IPut None key e k) [ALab (LCrash t)] g (after_panic t g)
| FDel : forall g i key k, fstep1 t g (IDel (Some i) key k) [AWr (LMap i) false] (fwmap g i (gdel geq (fmaps g i) key)) k
| FDelNil : forall g key k, fstep1 t g (IDel None key k) [] g k
| FLen : forall g m k, fstep1 t g (ILen m k) (map_read m) g (k (length (fpairs g m)))
| FIter : forall g m k l, Permutation l (fpairs g m) -> fstep1 t g (IIter m k) (map_read m) g (k l)
| FNext : forall g m k, fstep1 t g (INext m k) (map_read m) g k
| FLoadP : forall g e k, fstep1 t g (ILoadP e k) [ARd (LEnt (snd e)) true] g (k (fval g e))
| FStoreP : forall g e v k,
    fstep1 t g (IStoreP e v k) [AWr (LCell (snd e) (fnst g (snd e))) false; AWr (LEnt (snd e)) true] (fwval g (snd e) v) k
| FCasOk : forall g e p n k, fval g e = p ->
    fstep1 t g (ICas e p n k)
      (match n with WVal _ => [AWr (LCell (snd e) (fnst g (snd e))) false; ACas (LEnt (snd e))] | _ => [ACas (LEnt (snd e))] end)
      (match n with WVal v => fwval g (snd e) v | WNil => fwptr g e ENil | WExp => fwptr g e EExp end) (k true)
| FCasFail : forall g e p n k, fval g e <> p -> fstep1 t g (ICas e p n k) [ARd (LEnt (snd e)) true] g (k false)
| FNewEntry : forall g key v k,
    fstep1 t g (INewEntry key v k) [AWr (LCell (fnid g) (fnst g (fnid g))) false; AWr (LEnt (fnid g)) false] (fwnew g v) (k (key, fnid g))
| FDeref : forall g e s v k, fstep1 t g (IDeref e s v k) [ARd (LCell (snd e) s) false] g k
| FCompute : forall g o p k v, answers o p v -> fstep1 t g (ICompute o p k) [ALab (LComp t (eptr_val p) (Some v))] g (k v)
| FComputePanic : forall g o p k, fstep1 t g (ICompute o p k) [ALab (LComp t (eptr_val p) None)] g (after_panic t g)
| FVisit : forall g key v k b, fstep1 t g (IVisit key v k) [ALab (LVisit t key v (Some b))] g (k b)
| FVisitPanic : forall g key v k, fstep1 t g (IVisit key v k) [ALab (LVisit t key v None)] g (after_panic t g)
| FReturn : forall g o r, fstep1 t g (IReturn o r) [ALab (LRet t o r)] g IStop.

Record fst_ := FSt { fm : fmem; fpr : nat -> prog }.
(** A step of the system; its label is the list of the events it adds to the trace. *)
Inductive fstep : fst_ -> list ev -> fst_ -> Prop :=
| FStep : forall g p t l g' p', fstep1 t g (p t) l g' p' -> fstep (FSt g p) (map (fun a => (t, a)) l) (FSt g' (upd p t p')).
(** The zero Map *)
Definition fmem0 : fmem := FMem (fun _ => ENil) 0 (fun _ => 0) (fun _ => []) 0 (None, false) None 0 None.
Definition finit (s : fst_) : Prop := fm s = fmem0 /\ forall t, fpr s t = IStop.
End Fine.
Arguments prog : clear implicits. Arguments fmem : clear implicits. Arguments fst_ : clear implicits. Arguments nptr : clear implicits.
