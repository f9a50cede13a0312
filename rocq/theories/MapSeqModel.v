(** * Sequential model of xsync/map.go: Map used by one goroutine

    Function by function.  Entries (map.go:69-90) live in a heap; an entry is named by the
    key it was created for and a number, so the name of a new entry is always new.
    With one goroutine every CompareAndSwap loop succeeds in its first round (the value
    just loaded is still there), so loops are not iterated; the concurrent model
    (MapConcModel) has every single atomic step.  The zero Map (nil read, nil dirty) is
    [empty_map]; a nil map and an empty map behave alike when read, so read.m is a plain
    finite map. *)
From Coq Require Import List Bool Lia.
From stdpp Require Import gmap.

Section Map.
Context {K : Type} `{Countable K} {V : Type}.

(** map.go:69-90; expunged is map.go:25 *)
Inductive eptr := ENil | EExp | EVal (v : V).
Definition entry : Type := K * nat.
Definition heap := entry -> eptr.
Definition hset (h : heap) (e : entry) (x : eptr) : heap := fun e' => if decide (e' = e) then x else h e'.

(** map.go:29-67 without the mutex: one goroutine *)
Record mp := Mp {
  hp : heap;
  nid : nat;                      (* number of the next entry *)
  rm : gmap K entry;              (* read.m *)
  am : bool;                      (* read.amended *)
  dm : option (gmap K entry);     (* dirty; None is the nil map *)
  ms : nat                        (* misses *)
}.
(** The zero value *)
Definition empty_map : mp := Mp (fun _ => ENil) 0 ∅ false None 0.

(** map.go:125-131 *)
Definition e_load (h : heap) (e : entry) : option V * bool :=
  match h e with EVal v => (Some v, true) | _ => (None, false) end.

(** map.go:482-490; len(nil map) is 0 *)
Definition missLocked (m : mp) : mp :=
  let d := default ∅ (dm m) in
  if S (ms m) <? size d then Mp (hp m) (nid m) (rm m) (am m) (dm m) (S (ms m))
  else Mp (hp m) (nid m) d false None 0.

(** map.go:499-503 with tryExpungeLocked (506-515), over the entries in the given order *)
Fixpoint copy_live (l : list (K * entry)) (h : heap) (d : gmap K entry) : heap * gmap K entry :=
  match l with
  | [] => (h, d)
  | (k, e) :: l' =>
      match h e with
      | ENil => copy_live l' (hset h e EExp) d
      | EExp => copy_live l' h d
      | EVal _ => copy_live l' h (<[k := e]> d)
      end
  end.
(** map.go:492-504.  Go iterates in an unspecified order; see [copy_live_perm] in
    MapSeqProofs: the order does not matter. *)
Definition dirtyLocked (m : mp) : mp :=
  match dm m with
  | Some _ => m
  | None => let '(h, d) := copy_live (map_to_list (rm m)) (hp m) ∅ in
      Mp h (nid m) (rm m) (am m) (Some d) (ms m)
  end.
(** m.dirty[key] = e panics on a nil map: None *)
Definition dirty_set (m : mp) (k : K) (e : entry) : option mp :=
  match dm m with
  | None => None
  | Some d => Some (Mp (hp m) (nid m) (rm m) (am m) (Some (<[k := e]> d)) (ms m))
  end.
Definition write (m : mp) (e : entry) (x : eptr) : mp := Mp (hset (hp m) e x) (nid m) (rm m) (am m) (dm m) (ms m).
Definition dget (m : mp) (k : K) : option entry := dm m ≫= lookup k.

(** map.go:183-185 and the dirty insertion of map.go:143-147, 210-212, 280-282, 345-347 *)
Definition unexpunge (m : mp) (k : K) (e : entry) : option mp :=
  match hp m e with EExp => dirty_set (write m e ENil) k e | _ => Some m end.
(** map.go:152-158, 218-224, 288-295: a key found nowhere *)
Definition insert_new (m : mp) (k : K) (v : V) : option mp :=
  let m1 := if am m then m else
    let m' := dirtyLocked m in Mp (hp m') (nid m') (rm m') true (dm m') (ms m') in
  let e := (k, nid m1) in
  dirty_set (Mp (hset (hp m1) e (EVal v)) (S (nid m1)) (rm m1) (am m1) (dm m1) (ms m1)) k e.

(** map.go:100-123 *)
Definition load (m : mp) (k : K) : mp * (option V * bool) :=
  match rm m !! k with
  | Some e => (m, e_load (hp m) e)
  | None =>
      if am m then
        let m' := missLocked m in
        match dget m k with Some e => (m', e_load (hp m') e) | None => (m', (None, false)) end
      else (m, (None, false))
  end.

(** map.go:134-161 with tryStore (167-177) and storeLocked (190-192) *)
Definition store (m : mp) (k : K) (v : V) : option mp :=
  match rm m !! k with
  | Some e =>
      match hp m e with
      | EExp => m' ← unexpunge m k e; Some (write m' e (EVal v))
      | _ => Some (write m e (EVal v))
      end
  | None =>
      match dget m k with
      | Some e => Some (write m e (EVal v))
      | None => insert_new m k v
      end
  end.

(** map.go:237-262 tryLoadOrStore, 302-328 tryComputeIfAbsent (v is computeFunc(key)):
    (new heap value if stored, actual, loaded, ok) *)
Definition try_absent (x : eptr) (v : V) : option eptr * (option V * bool) * bool :=
  match x with
  | EExp => (None, (None, false), false)
  | EVal w => (None, (Some w, true), true)
  | ENil => (Some (EVal v), (Some v, false), true)
  end.
Definition apply_try (m : mp) (e : entry) (r : option eptr * (option V * bool) * bool) : mp * (option V * bool) :=
  (match fst (fst r) with Some x => write m e x | None => m end, snd (fst r)).
(** map.go:197-230 LoadOrStore; map.go:269-300 ComputeIfAbsent is the same with the value
    computed when needed *)
Definition loadOrStore (m : mp) (k : K) (v : V) : option (mp * (option V * bool)) :=
  let slow :=
    match rm m !! k with
    | Some e => m' ← unexpunge m k e; Some (apply_try m' e (try_absent (hp m' e) v))
    | None =>
        match dget m k with
        | Some e => let '(m', r) := apply_try m e (try_absent (hp m e) v) in Some (missLocked m', r)
        | None => m' ← insert_new m k v; Some (m', (Some v, false))
        end
    end in
  match rm m !! k with
  | Some e => let t := try_absent (hp m e) v in if snd t then Some (apply_try m e t) else slow
  | None => slow
  end.
Definition computeIfAbsent (m : mp) (k : K) (f : K -> V) : option (mp * (option V * bool)) := loadOrStore m k (f k).

(** map.go:359-383 *)
Definition try_present (x : eptr) (k : K) (g : K -> V -> V) : option eptr * (option V * bool) * bool :=
  match x with
  | EExp => (None, (None, false), false)
  | ENil => (None, (None, false), true)
  | EVal w => (Some (EVal (g k w)), (Some (g k w), true), true)
  end.
(** map.go:334-357 *)
Definition computeIfPresent (m : mp) (k : K) (g : K -> V -> V) : option (mp * (option V * bool)) :=
  let slow :=
    match rm m !! k with
    | Some e => m' ← unexpunge m k e; Some (apply_try m' e (try_present (hp m' e) k g))
    | None =>
        match dget m k with
        | Some e => let '(m', r) := apply_try m e (try_present (hp m e) k g) in Some (missLocked m', r)
        | None => Some (m, (None, false))
        end
    end in
  match rm m !! k with
  | Some e => let t := try_present (hp m e) k g in if snd t then Some (apply_try m e t) else slow
  | None => slow
  end.

(** map.go:427-437 *)
Definition e_delete (m : mp) (e : entry) : mp * (option V * bool) :=
  match hp m e with EVal v => (write m e ENil, (Some v, true)) | _ => (m, (None, false)) end.
(** map.go:389-410; Delete (413-415) drops the result *)
Definition loadAndDelete (m : mp) (k : K) : mp * (option V * bool) :=
  match rm m !! k with
  | Some e => e_delete m e
  | None =>
      if am m then
        let m1 := Mp (hp m) (nid m) (rm m) (am m) (delete k <$> dm m) (ms m) in
        match dget m k with Some e => e_delete (missLocked m1) e | None => (missLocked m1, (None, false)) end
      else (m, (None, false))
  end.

(** map.go:418-425 *)
Definition clear (m : mp) : mp := Mp (hp m) (nid m) ∅ false None 0.

(** map.go:449-480.  [range_read] is the state after the promotion (454-469); the loop
    (471-479) runs over the entries of read.m in some order [l].  f is any callback: its
    answer may depend on all the calls made before. *)
Definition range_read (m : mp) : mp :=
  if am m then Mp (hp m) (nid m) (default ∅ (dm m)) false None 0 else m.
Fixpoint range_loop (h : heap) (l : list (K * entry)) (f : list (K * V) -> K -> V -> bool) (past : list (K * V)) : list (K * V) :=
  match l with
  | [] => past
  | (k, e) :: l' =>
      match h e with
      | EVal v => if f past k v then range_loop h l' f (past ++ [(k, v)]) else past ++ [(k, v)]
      | _ => range_loop h l' f past
      end
  end.
End Map.
Arguments eptr : clear implicits. Arguments entry : clear implicits. Arguments heap : clear implicits. Arguments mp K {_ _} V.
