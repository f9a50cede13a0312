(** * C101: which positions of MapFineModel correspond to which of MapAnyModel *)
From Coq Require Import List Bool Arith Lia Permutation.
From Verif Require Import Trans RaceSpec MapConcSpec MapConcModel MapKeySpec MapAnyModel MapFineModel MapRaceOk MapFineInv.
Import ListNotations.

Section Rel.
Context {K V : Type} (geq : K -> K -> bool) (hashable : K -> bool).
Notation prog := (prog K V).
Notation fmem := (fmem K V).
Notation op := (op K V).
Notation pc := (pc K V).
Notation entry := (entry K).
Notation gomap := (list (K * entry)).
Notation res := (option V * bool)%type.
Notation label := (label K V).
Notation act := (act loc label).

(** ** The parts of [code] *)
Definition kont (o : op) (r : option entry) : prog :=
  match o, r with
  | OLoad _, Some e => e_load e (fun v => IReturn o (found v))
  | OLad _, Some e => e_delete e (fun v => IReturn o (found v))
  | _, _ => IReturn o (None, false)
  end.
Definition tryE (o : op) (e : entry) (k : option res -> prog) : prog :=
  match o with OLos _ v => try_los e v k | OCia _ _ => try_cia o e k | OCip _ _ => try_cip o e k | _ => IStop end.
Definition hitP (o : op) (e : entry) : prog :=
  match o with OStore _ v => IStoreP e v (unlock_return o unit_res) | _ => tryE o e (fun r => unlock_return o (res_of r)) end.
Definition foundP (o : op) (e : entry) : prog :=
  match o with OStore _ v => IStoreP e v (unlock_return o unit_res) | _ => tryE o e (fun r => miss_locked (unlock_return o (res_of r))) end.
Definition newP (o : op) : prog :=
  match o with
  | OStore key v => insert key v (unlock_return o unit_res)
  | OLos key v => insert key v (unlock_return o (Some v, false))
  | OCia key _ => ICompute o ENil (fun v => insert key v (unlock_return o (Some v, false)))
  | _ => IStop end.
Definition absentP (o : op) (read : ro) : prog :=
  match o with OCip _ _ => unlock_return o (None, false) | _ => make_room read (newP o) end.
Definition missP (o : op) (key : K) (r : option entry) : prog :=
  match o with
  | OLad _ => IGetDirty (fun d => IDel d key (miss_locked (IUnlock (kont o r))))
  | _ => miss_locked (IUnlock (kont o r)) end.
Definition writeP (o : op) (read : ro) (r : option entry) : prog := match r with Some e => foundP o e | None => absentP o read end.
Definition relookP (o : op) (key : K) (read : ro) : prog :=
  if reader o then ILook (fst read) key (fun r => match r with
    | Some e => IUnlock (kont o (Some e))
    | None => if snd read then IGetDirty (fun d => ILook d key (missP o key)) else IUnlock (kont o None) end)
  else ILook (fst read) key (fun r => match r with
    | Some e => unexpunge key e (hitP o e)
    | None => IGetDirty (fun d => ILook d key (writeP o read)) end).
Definition rereadP (o : op) : prog :=
  match o with
  | OClear => IZeroRead (INilDirty (ISetMisses 0 (unlock_return o unit_res)))
  | ORange => ILoadRead (fun read => if snd read then IGetDirty (fun d => promote d (IUnlock (range_from d))) else IUnlock (range_from (fst read)))
  | OLoad key | OLad key | OStore key _ | OLos key _ | OCia key _ | OCip key _ => ILoadRead (relookP o key) end.
Definition slowP (o : op) : prog := ILock (rereadP o).
Definition fin (o : op) (m : mode) (r : option res) : prog :=
  match m with
  | Fast => match r with Some x => IReturn o x | None => slowP o end
  | Slow false => unlock_return o (res_of r)
  | Slow true => miss_locked (unlock_return o (res_of r)) end.
Definition storeK (o : op) (b : bool) : prog := if b then IReturn o unit_res else slowP o.
Definition entP (o : op) (e : entry) (m : mode) : prog :=
  match o with OStore _ v => try_store e v (storeK o) | OLoad _ | OLad _ => kont o (Some e) | _ => tryE o e (fin o m) end.
Definition lookP (o : op) (key : K) (read : ro) : prog :=
  ILook (fst read) key (fun r => match r with
    | Some e => entP o e Fast
    | None => if reader o then if snd read then slowP o else IReturn o (None, false) else slowP o end).
Lemma code_key : forall o key, okey o = Some key -> code o = ILoadRead (lookP o key).
Proof. intros [| | | | | | |] key [= <-]; reflexivity. Qed.
Lemma code_range : code ORange = ILoadRead (fun read => if snd read then slowP ORange else range_from (fst read)).
Proof. reflexivity. Qed.
Lemma code_clear : code OClear = slowP OClear.
Proof. reflexivity. Qed.

(** ** Positions *)
Definition hok (o : op) : Prop := forall key, okey o = Some key -> hashable key = true.
(** the entry methods are called in these ways *)
Definition entok (o : op) (m : mode) : Prop :=
  match o with OLoad _ | OLad _ | OStore _ _ => m = Fast | ORange | OClear => False | _ => True end.
Definition loslike (o : op) : Prop := match o with OLos _ _ | OCia _ _ => True | _ => False end.

Inductive erp (o : op) (m : mode) : prog -> pc -> Prop :=
| E_ent : forall e, entok o m -> erp o m (entP o e m) (PEnt o e m)
| E_scas : forall key v e p, o = OStore key v -> m = Fast ->
    erp o m (ICas e p (WVal v) (fun ok => if ok then storeK o true else try_store e v (storeK o))) (PCas o e m p (Some v))
| E_dcas : forall key e s v, o = OLad key -> m = Fast ->
    erp o m (ICas e (EVal s v) WNil (fun ok => if ok then IDeref e s v (IReturn o (found (Some v))) else entP o e m)) (PCas o e m (EVal s v) None)
| E_call : forall key F e, o = OCia key F -> erp o m (ICompute o ENil (fun v => los_loop e v (fin o m))) (PCall o e m ENil)
| E_callp : forall key F e s w, o = OCip key F -> erp o m (ICompute o (EVal s w) (fun v => cip_loop e (EVal s w) v (fin o m))) (PCall o e m (EVal s w))
| E_los : forall e v, loslike o -> erp o m (los_loop e v (fin o m)) (PCas o e m ENil (Some v))
| E_loop : forall e v, loslike o -> erp o m (try_los e v (fin o m)) (PLoop o e m v)
| E_cip : forall key F e p v, o = OCip key F -> erp o m (cip_loop e p v (fin o m)) (PCas o e m p (Some v))
| E_ciploop : forall key F e v, o = OCip key F ->
    erp o m (ILoadP e (fun q => match q with EVal _ _ => cip_loop e q v (fin o m) | _ => fin o m None end)) (PLoop o e m v).

(** What an entry method is followed by *)
Inductive after (o : op) (m : mode) : prog -> pc -> Prop :=
| A_erp : forall p x, erp o m p x -> after o m p x
| A_fin : forall r, after o m (fin o m r) (match r with Some x => ret o m x | None => retry o m end)
| A_deref : forall e s v p x, after o m p x -> after o m (IDeref e s v p) x
| A_panic : after o m (match m with Fast => IStop | _ => IDead end) (match m with Fast => PIdle | _ => PDead end).

(** A position of MapAnyModel, or one of several: which one depends on a map that will be looked at *)
Inductive gpc :=
| Det (x : pc)
| QLook (o : op) (key : K) (read : ro)     (* the first look at read.m is still to come *)
| QIter (m : option nat)                   (* Range is about to go through m *)
| QUnl (m : option nat)                    (* the same, when it has unlocked *)
| QBuild (o : op) (m : option nat).        (* dirtyLocked is about to go through m *)
Definition pairsC (C : nat -> gomap) (m : option nat) : gomap := match m with Some i => C i | None => [] end.
Inductive inst (C : nat -> gomap) : gpc -> pc -> Prop :=
| I_det : forall x, inst C (Det x) x
| I_bad : forall o key read, hashable key = false -> inst C (QLook o key read) (PStart o)
| I_hit : forall o key read e, hashable key = true -> glook geq (pairsC C (fst read)) key = Some e -> inst C (QLook o key read) (PEnt o e Fast)
| I_miss : forall o key (read : ro), hashable key = true -> glook geq (pairsC C (fst read)) key = None -> (reader o = true -> snd read = true) ->
    inst C (QLook o key read) (PLock o)
| I_none : forall o key (read : ro), hashable key = true -> glook geq (pairsC C (fst read)) key = None -> reader o = true -> snd read = false ->
    inst C (QLook o key read) (PRet o (None, false))
| I_iter : forall m l, Permutation l (pairsC C m) -> inst C (QIter m) (PIter l)
| I_unl : forall m l, Permutation l (pairsC C m) -> inst C (QUnl m) (PUnlock ORange (CIter l))
| I_build : forall o m l, Permutation l (pairsC C m) -> inst C (QBuild o m) (PBuild o l).
Definition qmap (q : gpc) : option nat :=
  match q with Det _ => None | QLook _ _ read => fst read | QIter m | QUnl m | QBuild _ m => m end.

(** without the lock *)
Inductive nrp : prog -> gpc -> Prop :=
| N_stop : nrp IStop (Det PIdle)
| N_code : forall o, o <> OClear -> nrp (code o) (Det (PStart o))
| N_look : forall o key read, okey o = Some key -> nrp (lookP o key read) (QLook o key read)
| N_slow : forall o, hok o -> nrp (slowP o) (Det (PLock o))
| N_ent : forall o p x, hok o -> erp o Fast p x -> nrp p (Det x)
| N_ret : forall o r, nrp (IReturn o r) (Det (PRet o r))
| N_deref : forall e s v p x, nrp p (Det x) -> nrp (IDeref e s v p) (Det x)
| N_iter0 : forall m, nrp (range_from m) (QIter m)
| N_iter : forall m l, nrp (range_loop m l) (Det (PIter l))
| N_iter1 : forall m key e l, nrp (e_load e (fun r => match r with
      | None => range_loop m l
      | Some v => IVisit key v (fun b => if b then range_loop m l else IReturn ORange unit_res) end)) (Det (PIter ((key, e) :: l)))
| N_visit : forall m key v l, nrp (IVisit key v (fun b => if b then range_loop m l else IReturn ORange unit_res)) (Det (PVisit key v l)).

(** unlocking *)
Inductive urp : prog -> gpc -> Prop :=
| U_ret : forall o r, urp (IUnlock (IReturn o r)) (Det (PUnlock o (CRet r)))
| U_ent : forall o e, hok o -> reader o = true -> urp (IUnlock (entP o e Fast)) (Det (PUnlock o (CEnt e)))
| U_iter : forall m, urp (IUnlock (range_from m)) (QUnl m).

(** What has been done in MapAnyModel already, or not yet *)
Inductive stage :=
| SNone
| SPut (key : K) (e : entry)    (* m.dirty[key] = e: done *)
| SMissed (n : nat)             (* m.misses++: not yet; it is n *)
| SPub                          (* m.dirty = nil, m.misses = 0: done *)
| SPub2.                        (* m.misses = 0: done *)
Definition isnew (o : op) : Prop := match o with OStore _ _ | OLos _ _ | OCia _ _ => True | _ => False end.
Definition amendP (o : op) (rd : ro) : prog := IStoreRead (fst rd, true) (newP o).
Definition dirtyK (o : op) (rd : ro) (key : K) (e : entry) (l : gomap) (b : bool) : prog :=
  if b then dirty_loop (fst rd) l (amendP o rd) else IGetDirty (fun d => IPut d key e (dirty_loop (fst rd) l (amendP o rd))).
Definition missK (P : prog) (n : nat) (len : nat) : prog := if n <? len then P else IGetDirty (fun d => promote d P).

(** with the lock: C, rd, d and ms are the contents of the maps, m.read, m.dirty and m.misses *)
Inductive hrp (C : nat -> gomap) (rd : ro) (d : option nat) (ms : nat) : stage -> prog -> gpc -> Prop :=
| H_dead : forall st, hrp C rd d ms st IDead (Det PDead)
| H_u : forall p q, urp p q -> hrp C rd d ms SNone p q
| H_ent : forall o b p x, hok o -> erp o (Slow b) p x -> hrp C rd d ms SNone p (Det x)
| H_deref : forall e s v p x, hrp C rd d ms SNone p (Det x) -> hrp C rd d ms SNone (IDeref e s v p) (Det x)
| H_reread : forall o, hok o -> hrp C rd d ms SNone (rereadP o) (Det (PReread o))
| H_relook : forall o key, okey o = Some key -> hok o -> hrp C rd d ms SNone (relookP o key rd) (Det (PReread o))
(* Load, LoadAndDelete *)
| H_rdirty : forall o key, okey o = Some key -> hok o -> reader o = true -> glook geq (pairsC C (fst rd)) key = None -> snd rd = true ->
    hrp C rd d ms SNone (IGetDirty (fun d => ILook d key (missP o key))) (Det (PReread o))
| H_rlook : forall o key, okey o = Some key -> hok o -> reader o = true -> glook geq (pairsC C (fst rd)) key = None -> snd rd = true ->
    hrp C rd d ms SNone (ILook d key (missP o key)) (Det (PReread o))
| H_del : forall key, hok (OLad key) -> glook geq (pairsC C (fst rd)) key = None -> snd rd = true ->
    hrp C rd d ms SNone (missP (OLad key) key (glook geq (pairsC C d) key)) (Det (PReread (OLad key)))
| H_del2 : forall key, hok (OLad key) -> glook geq (pairsC C (fst rd)) key = None -> snd rd = true ->
    hrp C rd d ms SNone (IDel d key (miss_locked (IUnlock (kont (OLad key) (glook geq (pairsC C d) key))))) (Det (PReread (OLad key)))
(* missLocked *)
| H_miss : forall P o c, urp P (Det (PUnlock o c)) -> hrp C rd d ms SNone (miss_locked P) (Det (PMiss o c))
| H_miss2 : forall P o c, urp P (Det (PUnlock o c)) ->
    hrp C rd d ms SNone (ISetMisses (S ms) (IGetMisses (fun n => IGetDirty (fun d => ILen d (missK P n))))) (Det (PMiss o c))
| H_miss3 : forall P o c n, urp P (Det (PUnlock o c)) -> ms = S n ->
    hrp C rd d ms (SMissed n) (IGetMisses (fun n => IGetDirty (fun d => ILen d (missK P n)))) (Det (PMiss o c))
| H_miss4 : forall P o c n, urp P (Det (PUnlock o c)) -> ms = S n ->
    hrp C rd d ms (SMissed n) (IGetDirty (fun d => ILen d (missK P ms))) (Det (PMiss o c))
| H_miss5 : forall P o c n, urp P (Det (PUnlock o c)) -> ms = S n -> hrp C rd d ms (SMissed n) (ILen d (missK P ms)) (Det (PMiss o c))
| H_miss6 : forall P o c n, urp P (Det (PUnlock o c)) -> ms = S n -> (S n <? length (pairsC C d)) = false ->
    hrp C rd d ms (SMissed n) (IGetDirty (fun d => promote d P)) (Det (PMiss o c))
| H_miss7 : forall P o c n, urp P (Det (PUnlock o c)) -> ms = S n -> (S n <? length (pairsC C d)) = false ->
    hrp C rd d ms (SMissed n) (promote d P) (Det (PMiss o c))
(* promotion *)
| H_rng : hrp C rd d ms SNone (IGetDirty (fun d => promote d (IUnlock (range_from d)))) (Det PPromote)
| H_rng2 : hrp C rd d ms SNone (promote d (IUnlock (range_from d))) (Det PPromote)
| H_pub : forall P q, urp P q -> snd rd = false -> hrp C rd d ms SPub (INilDirty (ISetMisses 0 P)) q
| H_pub2 : forall P q, urp P q -> hrp C rd d ms SPub2 (ISetMisses 0 P) q
(* the others *)
| H_wdirty : forall o key, okey o = Some key -> hok o -> reader o = false -> glook geq (pairsC C (fst rd)) key = None ->
    hrp C rd d ms SNone (IGetDirty (fun d => ILook d key (writeP o rd))) (Det (PReread o))
| H_wlook : forall o key, okey o = Some key -> hok o -> reader o = false -> glook geq (pairsC C (fst rd)) key = None ->
    hrp C rd d ms SNone (ILook d key (writeP o rd)) (Det (PReread o))
| H_unexp : forall o key e, okey o = Some key -> hok o -> reader o = false -> hrp C rd d ms SNone (unexpunge key e (hitP o e)) (Det (PUnexp o e))
| H_add : forall o key e, okey o = Some key -> hok o -> reader o = false ->
    hrp C rd d ms SNone (IGetDirty (fun d => IPut d key e (hitP o e))) (Det (PAddDirty o e))
| H_add2 : forall o key e, okey o = Some key -> hok o -> reader o = false -> hrp C rd d ms SNone (IPut d key e (hitP o e)) (Det (PAddDirty o e))
| H_storel : forall key v e, hrp C rd d ms SNone (IStoreP e v (unlock_return (OStore key v) unit_res)) (Det (PStoreL (OStore key v) e))
(* dirtyLocked *)
| H_dlock : forall o, isnew o -> snd rd = false -> hrp C rd d ms SNone (dirty_locked (amendP o rd)) (Det (PBuild0 o))
| H_dload : forall o, isnew o -> d = None ->
    hrp C rd d ms SNone (ILoadRead (fun read => ILen (fst read) (fun _ => IMakeDirty (IIter (fst read) (fun l => dirty_loop (fst read) l (amendP o rd))))))
      (Det (PBuild0 o))
| H_dlen : forall o, isnew o -> d = None ->
    hrp C rd d ms SNone (ILen (fst rd) (fun _ => IMakeDirty (IIter (fst rd) (fun l => dirty_loop (fst rd) l (amendP o rd))))) (Det (PBuild0 o))
| H_dmake : forall o, isnew o -> d = None ->
    hrp C rd d ms SNone (IMakeDirty (IIter (fst rd) (fun l => dirty_loop (fst rd) l (amendP o rd)))) (Det (PBuild0 o))
| H_diter : forall o, isnew o -> d <> None ->
    hrp C rd d ms SNone (IIter (fst rd) (fun l => dirty_loop (fst rd) l (amendP o rd))) (QBuild o (fst rd))
| H_dloop : forall o l, isnew o -> d <> None -> hrp C rd d ms SNone (dirty_loop (fst rd) l (amendP o rd)) (Det (PBuild o l))
| H_dexp : forall o key e l, isnew o -> d <> None -> hrp C rd d ms SNone (try_expunge e (dirtyK o rd key e l)) (Det (PBuild o ((key, e) :: l)))
| H_dcas : forall o key e l, isnew o -> d <> None ->
    hrp C rd d ms SNone (ICas e ENil WExp (fun ok => if ok then dirtyK o rd key e l true else try_expunge e (dirtyK o rd key e l))) (Det (PBuildCas o key e l))
| H_dput : forall o key e l, isnew o -> d <> None -> hrp C rd d ms (SPut key e) (dirtyK o rd key e l false) (Det (PBuild o l))
| H_dput2 : forall o key e l, isnew o -> d <> None ->
    hrp C rd d ms (SPut key e) (IPut d key e (dirty_loop (fst rd) l (amendP o rd))) (Det (PBuild o l))
| H_amend : forall o, isnew o -> d <> None -> hrp C rd d ms SNone (amendP o rd) (Det (PAmend o))
(* a new entry *)
| H_new : forall o, isnew o -> d <> None -> hrp C rd d ms SNone (newP o) (Det (new_next o))
| H_ins : forall o key v, okey o = Some key -> isnew o -> d <> None ->
    hrp C rd d ms SNone (insert key v (unlock_return o (ins_res o v))) (Det (PIns o v))
| H_iput : forall o key n v, okey o = Some key -> d <> None ->
    hrp C rd d ms (SPut key (key, n)) (IGetDirty (fun d => IPut d key (key, n) (unlock_return o (ins_res o v)))) (Det (PUnlock o (CRet (ins_res o v))))
| H_iput2 : forall o key n v, okey o = Some key -> d <> None ->
    hrp C rd d ms (SPut key (key, n)) (IPut d key (key, n) (unlock_return o (ins_res o v))) (Det (PUnlock o (CRet (ins_res o v)))).

(** The memory of MapAnyModel *)
Definition dirtyG (C : nat -> gomap) (d : option nat) : option gomap := match d with Some i => Some (C i) | None => None end.
Definition absG (f : fmem) (st : stage) : gmem K V :=
  GMem (fheap f) (fnid f) (fnst f) (pairsC (fmaps f) (fst (fread f))) (snd (fread f))
    (match st with
     | SPut key e => match fdirty f with Some i => Some (gset geq (fmaps f i) key e) | None => None end
     | SPub => None
     | _ => dirtyG (fmaps f) (fdirty f) end)
    (match st with SMissed n => n | SPub | SPub2 => 0 | _ => fmiss f end) (flk f).

(** A move of MapAnyModel: none or one step *)
Inductive gmove (t : nat) (g : gmem K V) (x : pc) : list label -> gmem K V -> pc -> Prop :=
| M_stay : gmove t g x [] g x
| M_step : forall l g' x', gtstep geq hashable t g x l g' x' -> gmove t g x [l] g' x'.
Definition labs (l : list act) : list label := flat_map (fun a => match a with ALab b => [b] | _ => [] end) l.
(** The accesses that are steps of MapAnyModel: to entries and to the mutex, and what is seen *)
Definition step_act (a : act) : bool :=
  match a with ALab _ | ALock | AUnlock | ACas _ | ARd (LEnt _) _ | AWr (LEnt _) _ => true | _ => false end.
Definition nacts (l : list act) : nat := length (filter step_act l).

Definition holder (f : fmem) (t : nat) : bool := match flk f with Some u => u =? t | None => false end.
End Rel.
