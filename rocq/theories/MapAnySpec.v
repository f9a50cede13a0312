(** * Specification for C99: keys are names

    What a Map whose keys are compared with == does is said by giving every key a name, a number:
    two calls have the same name exactly if their keys are equal by ==.  A key that is not equal to
    itself (NaN) gets a name of its own at every call.  Then the history is one of a map object
    whose keys are numbers (MapConcSpec).  A call with a key that cannot be hashed takes no part:
    it panics. *)
From Coq Require Import List Bool Arith.
From Verif Require Import Trans MapConcSpec MapClrSpec.
Import ListNotations.

Section Names.
Context {K V : Type} (geq : K -> K -> bool) (hashable : K -> bool).
(** the key an operation is called with, if it takes one *)
Definition key_arg (o : op K V) : option K :=
  match o with OLoad k | OStore k _ | OLos k _ | OCia k _ | OCip k _ | OLad k => Some k | ORange | OClear => None end.
(** the same operation called with the name n *)
Definition with_name (n : nat) (o : op K V) : op nat V :=
  match o with
  | OLoad _ => OLoad n | OStore _ v => OStore n v | OLos _ v => OLos n v | OCia _ F => OCia n F
  | OCip _ G => OCip n G | OLad _ => OLad n | ORange => ORange | OClear => OClear
  end.

(** n is the right name for k, ns being the names given so far: that of an equal key, or a new one *)
Definition right_name (ns : list (K * nat)) (k : K) (n : nat) : Prop :=
  (exists k', In (k', n) ns /\ geq k k' = true) \/
  ((forall k' n', In (k', n') ns -> geq k k' = false) /\ (forall k', ~ In (k', n) ns)).

(** [named tr tr' ns]: tr' is tr with names for keys, ns being the names. *)
Inductive named : list (label K V) -> list (label nat V) -> list (K * nat) -> Prop :=
| N_nil : named [] [] []
| N_call : forall tr tr' ns t o k n, named tr tr' ns -> key_arg o = Some k -> hashable k = true -> right_name ns k n ->
    named (tr ++ [LCall t o]) (tr' ++ [LCall t (with_name n o)]) (ns ++ [(k, n)])
| N_bad : forall tr tr' ns t o k, named tr tr' ns -> key_arg o = Some k -> hashable k = false -> named (tr ++ [LCall t o]) tr' ns
| N_panic : forall tr tr' ns t o k tr1 tr2, named tr tr' ns -> key_arg o = Some k -> hashable k = false ->   (* of such a call *)
    tr = tr1 ++ LCall t o :: tr2 -> by_ t tr2 = [] -> named (tr ++ [LCrash t]) tr' ns
| N_call0 : forall tr tr' ns t o, named tr tr' ns -> key_arg o = None -> named (tr ++ [LCall t o]) (tr' ++ [LCall t (with_name 0 o)]) ns
| N_ret : forall tr tr' ns t o k n r, named tr tr' ns -> key_arg o = Some k -> In (k, n) ns ->
    named (tr ++ [LRet t o r]) (tr' ++ [LRet t (with_name n o) r]) ns
| N_ret0 : forall tr tr' ns t o r, named tr tr' ns -> key_arg o = None -> named (tr ++ [LRet t o r]) (tr' ++ [LRet t (with_name 0 o) r]) ns
| N_visit : forall tr tr' ns t k n v b, named tr tr' ns -> In (k, n) ns -> named (tr ++ [LVisit t k v b]) (tr' ++ [LVisit t n v b]) ns
| N_comp : forall tr tr' ns t old r, named tr tr' ns -> named (tr ++ [LComp t old r]) (tr' ++ [LComp t old r]) ns
| N_tau : forall tr tr' ns, named tr tr' ns -> named (tr ++ [LTau]) (tr' ++ [LTau]) ns.

(** The result of a call whose key is not equal to itself: as if the map were empty *)
Definition alone (o : op K V) (r : res V) : Prop :=
  match o with
  | OLoad _ | OLad _ | OCip _ _ => r = (None, false)
  | OStore _ _ => r = unit_res
  | OLos _ v => r = (Some v, false)
  | OCia _ F => exists v, F v /\ r = (Some v, false)
  | ORange | OClear => True
  end.
End Names.

(** ** What a Range has to meet *)
Section Range.
Context {K V : Type}.
(** the calls that store if the key is absent *)
Definition storing (o : op K V) : bool := match o with OStore _ _ | OLos _ _ | OCia _ _ => true | _ => false end.
(** the pair a call stored, seen when it returns: ok = false of LoadOrStore and ComputeIfAbsent says it did *)
Definition stored1 (l : label K V) : list (K * V) :=
  match l with
  | LRet _ (OStore k v) _ => [(k, v)]
  | LRet _ (OLos k _) (Some v, false) | LRet _ (OCia k _) (Some v, false) => [(k, v)]
  | _ => []
  end.
Definition stored (tr : list (label K V)) : list (K * V) := flat_map stored1 tr.
(** the pairs f is called with by goroutine u, oldest first *)
Definition visited (u : nat) (tr : list (label K V)) : list (K * V) :=
  flat_map (fun l => match l with LVisit t k v _ => if t =? u then [(k, v)] else [] | _ => [] end) tr.
(** the keys of the calls that may store *)
Definition store_keys (tr : list (label K V)) : list K :=
  flat_map (fun l => match l with LCall _ (OStore k _) | LCall _ (OLos k _) | LCall _ (OCia k _) => [k] | _ => [] end) tr.
End Range.
