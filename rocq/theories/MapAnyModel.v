(** * Model of xsync/map.go: Map used by any number of goroutines, with keys of any kind

    As MapConcModel (the same steps, the same positions in the code, the same operations), but the
    maps inside (map.go:53, 65) are Go's maps over interface{} keys as in MapKeySpec: [geq] is ==,
    which need not hold between a key and itself, and a key may be impossible to hash.  Clear
    replaces m.read in one step, as in MapClrModel (C55 has the two halves apart). *)
From Coq Require Import List Bool Arith Permutation.
From Verif Require Import Trans MapConcSpec MapConcModel MapKeySpec.
Import ListNotations.

Section Any.
Context {K V : Type} (geq : K -> K -> bool) (hashable : K -> bool).
Notation op := (op K V).
Notation label := (label K V).
Notation pc := (pc K V).
Notation eptr := (eptr V).
(** An entry's identity is its number; the key it was made for is a label nobody looks at. *)
Notation entry := (entry K).
Notation gomap := (list (K * entry)).

(** map.go:29-67 *)
Record gmem := GMem {
  gheap : nat -> eptr;      (* entry.p, by the entry's number *)
  gnid : nat;               (* number of the next entry *)
  gnst : nat -> nat;        (* next stamp for the entry *)
  grm : gomap;              (* read.m *)
  gam : bool;               (* read.amended *)
  gdm : option gomap;       (* dirty; None is the nil map *)
  gms : nat;                (* misses *)
  glk : option nat          (* mu: the goroutine that has locked it *)
}.
Definition gval (g : gmem) (e : entry) : eptr := gheap g (snd e).
(** the pairs of a map; the nil map has none *)
Definition pairs (d : option gomap) : gomap := match d with Some l => l | None => [] end.
Definition glget (g : gmem) (k : K) : option entry := glook geq (pairs (gdm g)) k.
(** changes of one field, as in MapConcModel *)
Definition gwptr (g : gmem) (e : entry) (x : eptr) : gmem := GMem (upd (gheap g) (snd e) x) (gnid g) (gnst g) (grm g) (gam g) (gdm g) (gms g) (glk g).
Definition gwval (g : gmem) (e : entry) (v : V) : gmem :=
  GMem (upd (gheap g) (snd e) (EVal (gnst g (snd e)) v)) (gnid g) (upd (gnst g) (snd e) (S (gnst g (snd e)))) (grm g) (gam g) (gdm g) (gms g) (glk g).
Definition gwdirty (g : gmem) (d : option gomap) : gmem := GMem (gheap g) (gnid g) (gnst g) (grm g) (gam g) d (gms g) (glk g).
Definition gwlock (g : gmem) (l : option nat) : gmem := GMem (gheap g) (gnid g) (gnst g) (grm g) (gam g) (gdm g) (gms g) l.
(** m.read.Store(readOnly{m: read.m, amended: true}), map.go:156, 222, 292 *)
Definition gwamend (g : gmem) : gmem := GMem (gheap g) (gnid g) (gnst g) (grm g) true (gdm g) (gms g) (glk g).
(** map.go:487-489 and 462-466 *)
Definition gpromote (g : gmem) : gmem := GMem (gheap g) (gnid g) (gnst g) (pairs (gdm g)) false None 0 (glk g).
(** map.go:482-490 *)
Definition gmissed (g : gmem) : gmem :=
  if S (gms g) <? length (pairs (gdm g)) then GMem (gheap g) (gnid g) (gnst g) (grm g) (gam g) (gdm g) (S (gms g)) (glk g) else gpromote g.
(** m.dirty[key] = newEntry(value) for a non-nil dirty, map.go:158, 224, 295 *)
Definition gwnew (g : gmem) (d : gomap) (k : K) (v : V) : gmem :=
  GMem (upd (gheap g) (gnid g) (EVal (gnst g (gnid g)) v)) (S (gnid g)) (upd (gnst g) (gnid g) (S (gnst g (gnid g)))) (grm g) (gam g)
    (Some (gset geq d k (k, gnid g))) (gms g) (glk g).
(** map.go:420-422 *)
Definition gcleared (g : gmem) : gmem := GMem (gheap g) (gnid g) (gnst g) [] false None 0 (glk g).
(** 406: delete(m.dirty, key), which does nothing to a nil map *)
Definition gdrop (o : op) (k : K) (g : gmem) : gmem :=
  match o with OLad _ => gwdirty g (match gdm g with Some d => Some (gdel geq d k) | None => None end) | _ => g end.

(** [gtstep t g p l g' p']: a step of goroutine t, from memory g at p to g' at p'.  The comments of
    MapConcModel's [tstep] apply. *)
Inductive gtstep (t : nat) : gmem -> pc -> label -> gmem -> pc -> Prop :=
| GCall : forall g o, o <> OClear -> gtstep t g PIdle (LCall t o) g (PStart o)
(* the first look at m.read, read.m[key], panics if the key cannot be hashed: 101, 136, 200, 270, 335, 390 *)
| GStartBad : forall g o k, okey o = Some k -> hashable k = false -> gtstep t g (PStart o) (LCrash t) g PIdle
| GStartHit : forall g o k e, okey o = Some k -> hashable k = true -> glook geq (grm g) k = Some e -> gtstep t g (PStart o) LTau g (PEnt o e Fast)
| GStartMiss : forall g o k, okey o = Some k -> hashable k = true -> glook geq (grm g) k = None -> (reader o = true -> gam g = true) ->
    gtstep t g (PStart o) LTau g (PLock o)
| GStartNone : forall g o k, okey o = Some k -> hashable k = true -> glook geq (grm g) k = None -> reader o = true -> gam g = false ->
    gtstep t g (PStart o) LTau g (PRet o (None, false))
| GStartRange : forall g l, gam g = false -> Permutation l (grm g) -> gtstep t g (PStart ORange) LTau g (PIter l)
| GStartRangeLock : forall g, gam g = true -> gtstep t g (PStart ORange) LTau g (PLock ORange)
(* entry methods *)
| GEnt : forall g o e m, gtstep t g (PEnt o e m) LTau g (ent_next o e m (gval g e))
| GComp : forall g o e m p v, answers o p v -> gtstep t g (PCall o e m p) (LComp t (eptr_val p) (Some v)) g (PCas o e m p (Some v))
| GCompPanic : forall g o e m p,
    gtstep t g (PCall o e m p) (LComp t (eptr_val p) None) g (match m with Fast => PIdle | _ => PDead end)
| GCasOk : forall g o e m p nv, gval g e = p ->
    gtstep t g (PCas o e m p nv) LTau (match nv with Some v => gwval g e v | None => gwptr g e ENil end) (cas_next o m p nv)
| GCasFail : forall g o e m p nv, gval g e <> p -> gtstep t g (PCas o e m p nv) LTau g (cas_fail o e m nv)
| GLoop : forall g o e m nv, gtstep t g (PLoop o e m nv) LTau g (loop_next o e m nv (gval g e))
(* with the lock *)
| GLock : forall g o, glk g = None -> gtstep t g (PLock o) LTau (gwlock g (Some t)) (PReread o)
| GReHit : forall g o k e, okey o = Some k -> glook geq (grm g) k = Some e ->
    gtstep t g (PReread o) LTau g (if reader o then PUnlock o (CEnt e) else PUnexp o e)
| GReNone : forall g o k, okey o = Some k -> glook geq (grm g) k = None -> reader o = true -> gam g = false ->
    gtstep t g (PReread o) LTau g (PUnlock o (CRet (None, false)))
| GReMiss : forall g o k, okey o = Some k -> glook geq (grm g) k = None -> reader o = true -> gam g = true ->
    gtstep t g (PReread o) LTau (gdrop o k g) (PMiss o (match glget g k with Some e => CEnt e | None => CRet (None, false) end))
| GReDirty : forall g o k e, okey o = Some k -> glook geq (grm g) k = None -> reader o = false -> glget g k = Some e ->
    gtstep t g (PReread o) LTau g (match o with OStore _ _ => PStoreL o e | _ => PEnt o e (Slow true) end)
| GReAbsent : forall g k G, glook geq (grm g) k = None -> glget g k = None ->
    gtstep t g (PReread (OCip k G)) LTau g (PUnlock (OCip k G) (CRet (None, false)))
| GReNew : forall g o k, okey o = Some k -> glook geq (grm g) k = None -> reader o = false -> (forall k G, o <> OCip k G) -> glget g k = None ->
    gtstep t g (PReread o) LTau g (if gam g then new_next o else PBuild0 o)
| GReRange : forall g l, gam g = false -> Permutation l (grm g) -> gtstep t g (PReread ORange) LTau g (PUnlock ORange (CIter l))
| GReRangeAm : forall g, gam g = true -> gtstep t g (PReread ORange) LTau g PPromote
| GUnexpYes : forall g o e, gval g e = EExp -> gtstep t g (PUnexp o e) LTau (gwptr g e ENil) (PAddDirty o e)
| GUnexpNo : forall g o e, gval g e <> EExp -> gtstep t g (PUnexp o e) LTau g (unexp_next o e)
(* m.dirty[key] = e, with the caller's key *)
| GAddDirty : forall g o k e d, okey o = Some k -> gdm g = Some d ->
    gtstep t g (PAddDirty o e) LTau (gwdirty g (Some (gset geq d k e))) (unexp_next o e)
| GAddDirtyNil : forall g o e, gdm g = None -> gtstep t g (PAddDirty o e) (LCrash t) g PDead
| GStoreL : forall g k v e, gtstep t g (PStoreL (OStore k v) e) LTau (gwval g e v) (PUnlock (OStore k v) (CRet unit_res))
| GBuildSkip : forall g o, gdm g <> None -> gtstep t g (PBuild0 o) LTau g (PAmend o)
| GBuildMake : forall g o l, gdm g = None -> Permutation l (grm g) -> gtstep t g (PBuild0 o) LTau (gwdirty g (Some [])) (PBuild o l)
| GBuildNil : forall g o k e l, gval g e = ENil -> gtstep t g (PBuild o ((k, e) :: l)) LTau g (PBuildCas o k e l)
| GBuildExp : forall g o k e l, gval g e = EExp -> gtstep t g (PBuild o ((k, e) :: l)) LTau g (PBuild o l)
| GBuildVal : forall g o k e l s v d, gval g e = EVal s v -> gdm g = Some d ->
    gtstep t g (PBuild o ((k, e) :: l)) LTau (gwdirty g (Some (gset geq d k e))) (PBuild o l)
| GBuildCas : forall g o k e l, gval g e = ENil -> gtstep t g (PBuildCas o k e l) LTau (gwptr g e EExp) (PBuild o l)
| GBuildCasFail : forall g o k e l, gval g e <> ENil -> gtstep t g (PBuildCas o k e l) LTau g (PBuild o ((k, e) :: l))
| GBuildEnd : forall g o, gtstep t g (PBuild o []) LTau g (PAmend o)
| GAmend : forall g o, gtstep t g (PAmend o) LTau (gwamend g) (new_next o)
| GNew : forall g o v, answers o ENil v -> gtstep t g (PNew o) (LComp t None (Some v)) g (PIns o v)
| GNewPanic : forall g o, gtstep t g (PNew o) (LComp t None None) g PDead
| GIns : forall g o k v d, okey o = Some k -> gdm g = Some d -> gtstep t g (PIns o v) LTau (gwnew g d k v) (PUnlock o (CRet (ins_res o v)))
| GInsNil : forall g o v, gdm g = None -> gtstep t g (PIns o v) (LCrash t) g PDead
| GMiss : forall g o c, gtstep t g (PMiss o c) LTau (gmissed g) (PUnlock o c)
| GPromote : forall g l, Permutation l (pairs (gdm g)) -> gtstep t g PPromote LTau (gpromote g) (PUnlock ORange (CIter l))
| GUnlock : forall g o c, gtstep t g (PUnlock o c) LTau (gwlock g None)
    (match c with CRet r => PRet o r | CEnt e => PEnt o e Fast | CIter l => PIter l end)
| GRet : forall g o r, gtstep t g (PRet o r) (LRet t o r) g PIdle
(* the loop of Range; f gets the key stored in the map *)
| GIterVal : forall g k e l s v, gval g e = EVal s v -> gtstep t g (PIter ((k, e) :: l)) LTau g (PVisit k v l)
| GIterSkip : forall g k e l, eptr_val (gval g e) = None -> gtstep t g (PIter ((k, e) :: l)) LTau g (PIter l)
| GIterEnd : forall g, gtstep t g (PIter []) LTau g (PRet ORange unit_res)
| GVisit : forall g k v l b, gtstep t g (PVisit k v l) (LVisit t k v (Some b)) g (if b then PIter l else PRet ORange unit_res)
| GVisitPanic : forall g k v l, gtstep t g (PVisit k v l) (LVisit t k v None) g PIdle
(* Clear: map.go:418-425 *)
| GCallClear : forall g, gtstep t g PIdle (LCall t OClear) g (PLock OClear)
| GClear : forall g, gtstep t g (PReread OClear) LTau (gcleared g) (PUnlock OClear (CRet unit_res)).

Record gst := GSt { gm : gmem; gpcs : nat -> pc }.
Inductive gstep : gst -> label -> gst -> Prop :=
| GStep : forall g p t l g' p', gtstep t g (p t) l g' p' -> gstep (GSt g p) l (GSt g' (upd p t p')).

(** The zero Map *)
Definition gmem0 : gmem := GMem (fun _ => ENil) 0 (fun _ => 0) [] false None 0 None.
Definition ginit (s : gst) : Prop := gm s = gmem0 /\ forall t, gpcs s t = PIdle.
End Any.
Arguments gmem : clear implicits. Arguments gst : clear implicits.
