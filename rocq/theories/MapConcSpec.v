(** * Specification for C50-C53: a map object shared by any number of goroutines

    Operations, what an observer of the API sees ([label]), and a machine [astep] in which
    every operation except Range happens at one instant between its call and its return. *)
From Coq Require Import List Bool Arith.
From stdpp Require Import gmap.
From Verif Require Import Trans.

Section Spec.
Context {K : Type} `{Countable K} {V : Type}.
Notation amap := (gmap K V).

(** [F v]: computeFunc may answer v; [G w v]: computeFunc, called with the value w, may
    answer v.  Delete is LoadAndDelete with the result dropped (map.go:413-415). *)
Inductive op :=
| OLoad (k : K) | OStore (k : K) (v : V) | OLos (k : K) (v : V)   (* LoadOrStore *)
| OCia (k : K) (F : V -> Prop)                                    (* ComputeIfAbsent *)
| OCip (k : K) (G : V -> V -> Prop)                               (* ComputeIfPresent *)
| OLad (k : K)                                                    (* LoadAndDelete *)
| ORange
| OClear.
(** The value (None is nil) and the ok / loaded / exist flag; (None, false) for no result *)
Definition res : Type := option V * bool.
Definition unit_res : res := (None, false).
Definition found (o : option V) : res := (o, bool_decide (is_Some o)).

(** What is seen from outside.  The callbacks' answer None is a panic. *)
Inductive label :=
| LCall (t : nat) (o : op)
| LRet (t : nat) (o : op) (r : res)
| LComp (t : nat) (old : option V) (r : option V)       (* computeFunc is called and answers *)
| LVisit (t : nat) (k : K) (v : V) (r : option bool)    (* Range calls f(k, v), which answers *)
| LCrash (t : nat)                                      (* the map's code itself panics *)
| LTau.                                                 (* an internal step *)
(** The history: everything but the internal steps *)
Definition visible (l : label) : bool := match l with LTau => false | _ => true end.
Definition history (tr : list label) : list label := List.filter visible tr.

(** The effect of an operation at the instant it happens: contents before, contents after,
    result.  Q are the contents the map has had since the call. *)
Definition effect (o : op) (Q : list amap) (A A' : amap) (r : res) : Prop :=
  match o with
  | OLoad k => A' = A /\ r = found (A !! k)
  | OStore k v => A' = <[k := v]> A /\ r = unit_res
  | OLos k v => match A !! k with
      | Some w => A' = A /\ r = (Some w, true)
      | None => A' = <[k := v]> A /\ r = (Some v, false) end
  | OCia k F => match A !! k with
      | Some w => A' = A /\ r = (Some w, true)
      | None => exists v, F v /\ A' = <[k := v]> A /\ r = (Some v, false) end
  | OCip k G => match A !! k with
      | Some _ => exists A0 w v, In A0 Q /\ A0 !! k = Some w /\ G w v /\ A' = <[k := v]> A /\ r = (Some v, true)
      | None => A' = A /\ r = (None, false) end
  | OLad k => A' = delete k A /\ r = found (A !! k)
  | ORange => False
  | OClear => A' = ∅ /\ r = unit_res
  end.

(** A key absent at some instant *)
Definition absent_in (Q : list amap) (k : K) : Prop := exists A, In A Q /\ A !! k = None.
(** When a callback may be called, and with what: ComputeIfAbsent calls it only if the key was
    absent, ComputeIfPresent with a value the key had, at some instant since the call *)
Definition comp_ok (o : op) (Q : list amap) (old : option V) (r : option V) : Prop :=
  match o with
  | OCia k F => old = None /\ absent_in Q k /\ (forall v, r = Some v -> F v)
  | OCip k G => exists A0 w, In A0 Q /\ A0 !! k = Some w /\ old = Some w /\ (forall v, r = Some v -> G w v)
  | _ => False
  end.

(** A goroutine: no call; a call that has not happened yet; one that has, with its result; a
    Range with the calls of f so far and whether f has stopped it. *)
Inductive ctl :=
| AIdle | APend (o : op) (Q : list amap) | ADone (o : op) (r : res) | ARng (Q : list amap) (vis : list (K * V)) (stop : bool).
Record ast := AS { cur : amap; ctls : nat -> ctl }.

Definition called (o : op) (A : amap) : ctl := match o with ORange => ARng [A] [] false | _ => APend o [A] end.
(** The contents become A: everybody in a call sees them. *)
Definition see (A : amap) (c : ctl) : ctl :=
  match c with APend o Q => APend o (A :: Q) | ARng Q vis stop => ARng (A :: Q) vis stop | _ => c end.

Inductive astep : ast -> label -> ast -> Prop :=
| ACall : forall A c t o, c t = AIdle -> astep (AS A c) (LCall t o) (AS A (upd c t (called o A)))
| ALin : forall A c t o Q A' r, c t = APend o Q -> effect o Q A A' r ->
    astep (AS A c) LTau (AS A' (upd (fun u => see A' (c u)) t (ADone o r)))
| ARet : forall A c t o r, c t = ADone o r -> astep (AS A c) (LRet t o r) (AS A (upd c t AIdle))
| AComp : forall A c t o Q old v, c t = APend o Q -> comp_ok o Q old (Some v) -> astep (AS A c) (LComp t old (Some v)) (AS A c)
| ACompPanic : forall A c t o Q old, c t = APend o Q -> comp_ok o Q old None ->
    astep (AS A c) (LComp t old None) (AS A (upd c t AIdle))
(* Range: f is called for a key not visited before with a value the key had at some instant
   since the call; Range goes on unless f answers false *)
| AVisit : forall A c t Q vis k v b, c t = ARng Q vis false -> ~ In k (map fst vis) ->
    (exists A0, In A0 Q /\ A0 !! k = Some v) ->
    astep (AS A c) (LVisit t k v (Some b)) (AS A (upd c t (ARng Q (vis ++ [(k, v)]) (negb b))))
| AVisitPanic : forall A c t Q vis k v, c t = ARng Q vis false -> ~ In k (map fst vis) ->
    (exists A0, In A0 Q /\ A0 !! k = Some v) ->
    astep (AS A c) (LVisit t k v None) (AS A (upd c t AIdle))
(* it returns when f stopped it, or when every key not visited was absent at some instant *)
| ARetRange : forall A c t Q vis stop, c t = ARng Q vis stop ->
    (stop = true \/ forall k, ~ In k (map fst vis) -> absent_in Q k) ->
    astep (AS A c) (LRet t ORange unit_res) (AS A (upd c t AIdle))
| ATau : forall a, astep a LTau a.

Definition ainit (a : ast) : Prop := cur a = ∅ /\ forall t, ctls a t = AIdle.
End Spec.
Arguments op : clear implicits. Arguments res : clear implicits. Arguments label : clear implicits. Arguments ctl K {_ _} V. Arguments ast K {_ _} V.
