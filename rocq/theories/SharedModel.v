(** * Model of xsync/shared_map.go: SharedMap, used by one goroutine

    A shard is a Map (MapSeqModel).  Panics are [None]. *)
From Coq Require Import ZArith List Bool Lia.
From stdpp Require Import gmap.
From Verif Require Import MapSeqModel MapSeqSpec MapSeqProofs.
Open Scope Z_scope.

Definition u32 (z : Z) : Z := z mod 2 ^ 32.

(** shared_map.go:85-93 *)
Definition getShardBlockSize (n : Z) : Z :=
  let x := u32 (n - 1) in
  let x := Z.lor x (Z.shiftr x 1) in
  let x := Z.lor x (Z.shiftr x 2) in
  let x := Z.lor x (Z.shiftr x 4) in
  let x := Z.lor x (Z.shiftr x 8) in
  let x := Z.lor x (Z.shiftr x 16) in
  u32 (x + 1).

(** shared_map.go:170-179; a string is its bytes *)
Definition fnv_step (h b : Z) : Z := Z.lxor (u32 (h * 16777619)) b.
Definition fnv32 (key : list Z) : Z := fold_left fnv_step key 2166136261.

Section Shared.
Context {V : Type}.
Notation key := (list Z).
Notation shard := (mp (list Z) V).

(** shared_map.go:23-27; shardBlockSize equals len(b) *)
Record smap := SM { shards : list shard; mask : Z }.

(** shared_map.go:44-64 with one WithShardBlockSize(n) option (37-41); n is an int *)
Definition newSharedMap (n : Z) : option smap :=
  let s := u32 n in
  if s <=? 0 then None
  else let bs := getShardBlockSize s in
    Some (SM (repeat empty_map (Z.to_nat bs)) (u32 (bs - 1))).

(** shared_map.go:96-98; indexing out of range panics *)
Definition index (m : smap) (k : key) : Z := Z.land (fnv32 k) (mask m).
Definition getShard (m : smap) (k : key) : option shard := shards m !! Z.to_nat (index m k).
Definition setShard (m : smap) (k : key) (s : shard) : smap := SM (<[Z.to_nat (index m k) := s]> (shards m)) (mask m).

Inductive sop :=
| SStore (k : key) (v : V) | SMStore (data : list (key * V)) | SLoad (k : key) | SHas (k : key) | SLoadOrStore (k : key) (v : V)
| SComputeIfAbsent (k : key) (f : key -> V) | SComputeIfPresent (k : key) (g : key -> V -> V) | SDelete (k : key) | SClear
| SRange (n : nat).   (* a Range that got through the first n shards; see [range_shards] *)

(** One operation of the key's shard *)
Definition on_shard (m : smap) (k : key) (o : mop key V) : option (smap * (option V * bool)) :=
  s ← getShard m k; '(s', r) ← step_op s o; Some (setShard m k s', r).
Definition drop_res (x : option (smap * (option V * bool))) : option (smap * (option V * bool)) :=
  '(m, _) ← x; Some (m, unit_res).

Fixpoint mstore (m : smap) (l : list (key * V)) : option smap :=
  match l with
  | [] => Some m
  | (k, v) :: l' => '(m', _) ← on_shard m k (MStore k v); mstore m' l'
  end.

(** Store 108-112, MStore 101-105 (in the order Go happens to iterate the argument), Load
    125-129, Has 149-154, LoadOrStore 115-120, ComputeIfAbsent 69-74, ComputeIfPresent
    78-83, Delete 157-161, Clear 164-168.  Results as in MapSeqSpec; the flag carries the
    boolean of Has and LoadOrStore. *)
Definition step_sop (m : smap) (o : sop) : option (smap * (option V * bool)) :=
  match o with
  | SStore k v => drop_res (on_shard m k (MStore k v))
  | SMStore data => m' ← mstore m data; Some (m', unit_res)
  | SLoad k => on_shard m k (MLoad k)
  | SHas k => '(m', r) ← on_shard m k (MLoad k); Some (m', (None, snd r))
  | SLoadOrStore k v => '(m', r) ← on_shard m k (MLoadOrStore k v); Some (m', (None, negb (snd r)))
  | SComputeIfAbsent k f => on_shard m k (MComputeIfAbsent k f)
  | SComputeIfPresent k g => on_shard m k (MComputeIfPresent k g)
  | SDelete k => drop_res (on_shard m k (MDelete k))
  | SClear => Some (SM (map clear (shards m)) (mask m), unit_res)
  | SRange n => Some (SM (map range_read (take n (shards m)) ++ drop n (shards m)) (mask m), unit_res)
  end.

(** shared_map.go:133-146.  Each shard's Range promotes and then iterates in some order
    [ord i] of its entries; the loop stops after a shard in which f answered false (the
    variable b).  Gives the new shards and the calls made. *)
Fixpoint shard_calls (h : heap (list Z) V) (l : list (key * entry key)) (f : list (key * V) -> key -> V -> bool) (past : list (key * V)) : list (key * V) * bool :=
  match l with
  | [] => (past, true)
  | (k, e) :: l' =>
      match h e with
      | EVal v => if f past k v then shard_calls h l' f (past ++ [(k, v)]) else (past ++ [(k, v)], false)
      | _ => shard_calls h l' f past
      end
  end.
Fixpoint range_shards (l : list shard) (ord : nat -> list (key * entry key)) (i : nat) (f : list (key * V) -> key -> V -> bool) (past : list (key * V))
  : list shard * list (key * V) :=
  match l with
  | [] => ([], past)
  | s :: l' =>
      let s' := range_read s in
      let '(past', b) := shard_calls (hp s') (ord i) f past in
      if b then let '(l'', p'') := range_shards l' ord (S i) f past' in (s' :: l'', p'') else (s' :: l', past')
  end.
End Shared.
Arguments smap : clear implicits. Arguments sop : clear implicits.
