(** * Model of the stream operations that use keys, for keys of any kind
    (xstream/xstream.go Distinct, Group; xstream/collection.go Map)

    As in XStreamModel, XPanicModel and XQuitModel, but the maps are Go's maps over interface{}
    keys as in MapKeySpec: keys are compared with [geq], under which a key can differ from itself
    (NaN) and two different keys can be equal (0.0 and -0.0), and using a key for which [hashable]
    is false panics.  The key function panics where it gives None.  A panic in the goroutine of
    Distinct is swallowed by the pool after the deferred close; a panic in Group or Map reaches
    the caller. *)
From Coq Require Import List Bool Arith.
From Verif Require Import NetModel XStreamModel MapKeySpec.
Import ListNotations.

Section StreamKey.
Context {A K : Type} (geq : K -> K -> bool) (hashable : K -> bool).
Notation item := (item A). Notation gmap := (list (K * list item)).

(** Observable actions: the key function is called; a panic reaches the caller; Map returns *)
Inductive kact := KF (x : item) | KPanic | KMap (m : gmap).
Notation P := (proc item kact).

(** f(item), then the use of the key in a map, which panics if it cannot be hashed (xstream.go:143-144, 469-470;
    collection.go:41-42) *)
Definition usable (f : item -> option K) (x : item) : option K :=
  match f x with Some k => if hashable k then Some k else None | None => None end.

(** xstream.go:135-151 Distinct *)
CoFixpoint distinct_k (f : item -> option K) (unique : list (K * unit)) : P :=
  PRecv (fun o => match o with
    | Some x => PCall (KF x)
        match usable f x with
        | Some k => match glook geq unique k with
                    | None => PSend x (distinct_k f (gset geq unique k tt))
                    | Some _ => distinct_k f unique
                    end
        | None => PClose PEnd
        end
    | None => PClose PEnd end).

(** groups[key] = append(groups[key], item) (xstream.go:470, collection.go:42) *)
Definition add_to (m : gmap) (k : K) (x : item) : gmap :=
  gset geq m k (match glook geq m k with Some l => l | None => [] end ++ [x]).
(** xstream.go:467-471 and collection.go:39-43, the loop that fills the map.  [fin ok m]: what
    follows, after the loop (true) or in the caller that recovered the panic (false). *)
CoFixpoint fill_k (f : item -> option K) (m : gmap) (fin : bool -> gmap -> P) : P :=
  PRecv (fun o => match o with
    | Some x => PCall (KF x)
        match usable f x with
        | Some k => fill_k f (add_to m k x) fin
        | None => fin false m
        end
    | None => fin true m end).
(** xstream.go:466-482 Group: the groups are sent in the order [ord] puts them *)
Definition group_k (ord : gmap -> gmap) (f : item -> option K) : P :=
  fill_k f [] (fun ok m => if ok then sends (map (fun g => ISlice (snd g)) (ord m)) (PClose PEnd) else PCall KPanic PEnd).
(** collection.go:37-47: n calls of Map on the collector, the caller recovering a panic; [cache] is
    g.groups, None for nil *)
Fixpoint gmap_k (f : item -> option K) (cache : option gmap) (n : nat) : P :=
  match n with
  | O => PEnd
  | S n' => match cache with
            | Some m => PCall (KMap m) (gmap_k f cache n')
            | None => fill_k f [] (fun ok m => PCall (if ok then KMap m else KPanic) (gmap_k f (Some m) n'))
            end
  end.
End StreamKey.
