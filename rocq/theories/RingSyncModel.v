(** * What the steps of xring/xring.go do to shared memory

    The concurrent model of XRingModel.v takes steps; here is which reads, writes and lock
    operations each of them is. *)
From Coq Require Import ZArith List Bool.
From Verif Require Import GoBase Trans XRingModel SyncSpec.
Import ListNotations.

Section RingSync.
Variable V : Type.

(** xring.go:22-26: the slice header in the field elements, the field index, the elements of the array. *)
Inductive place := PElements | PIndex | PSlot (i : Z).
(** xring.go:25: one lock. *)
Notation ev := (ev place unit (label V)).
Notation act := (act place unit (label V)).

(** The accesses of t's step labelled [LTau t]; a panic runs the deferred unlock (xring.go:42, 51). *)
Definition ring_tau (r : ring V) (p : pc V) : list act :=
  match p with
  | AWait _ => [ALock tt]                                                 (* xring.go:41 *)
  | AWrite v => ARd PIndex :: ARd PElements ::                            (* xring.go:44 *)
      match add_write r v with
      | Ok _ => [AWr (PSlot (Z.rem (index r) (zlen (elems r))))]
      | Panic => [AUnlk tt]
      end
  | ABump _ => [ARd PIndex; AWr PIndex]                                   (* xring.go:45 *)
  | TWait => [ARLock tt]                                                  (* xring.go:50 *)
  | TBounds => ARd PIndex :: ARd PElements ::                             (* xring.go:55-62 *)
      match take_bounds r with
      | Ok (size, _) => if (size <? 0)%Z then [ARUnlk tt] else []
      | Panic => [ARUnlk tt]
      end
  | TLoop size start i _ =>                                               (* xring.go:63-65 *)
      if (i <? size)%Z then ARd PElements ::
        match take_read r start i with
        | Ok _ => [ARd (PSlot (Z.rem (start + i) (zlen (elems r))))]
        | Panic => [ARUnlk tt]
        end
      else []
  | _ => []
  end.
(** All steps; calls and returns are labels.  xring.go:42, 51: the deferred unlock comes before the return. *)
Definition ring_acts (s : cstate V) (l : label V) : list ev :=
  match l with
  | LCall t _ => [(t, ALab l)]
  | LAdd t _ => [(t, AUnlk tt); (t, ALab l)]
  | LTake t _ => [(t, ARUnlk tt); (t, ALab l)]
  | LTau t => map (pair t) (ring_tau (cring s) (pcs s t))
  end.
End RingSync.
Arguments ring_acts {V}. Arguments ring_tau {V}.
