(** * Model of xstream/xstream.go Copy (604-629)

    The goroutine of Copy receives an item and sends it to every channel in turn, then closes
    the channels in the same order.  Channels are numbered by their place in the sorted slice
    [channels]; which name got which number does not matter for anything below, and the
    theorems hold for any order of the capacities.  The source delivers [cin] and is closed;
    each copy has one reader that reads at any pace. *)
From Coq Require Import List Bool Arith ZArith Lia.
From Verif Require Import Trans.
Import ListNotations.
Open Scope nat_scope.

Section Copy.
Context {A : Type}.

(** 607-611: [make(chan interface{}, bufferSize)] panics when bufferSize is negative; 613-615: the
    channels are sorted by capacity, the largest first (insertion here: sort.Slice promises a sorted
    permutation and nothing about equal elements).  A name is a number. *)
Fixpoint insert (x : nat * nat) (l : list (nat * nat)) : list (nat * nat) :=
  match l with [] => [x] | y :: r => if snd y <? snd x then x :: l else y :: insert x r end.
Fixpoint channels (params : list (nat * Z)) : option (list (nat * nat)) :=
  match params with
  | [] => Some []
  | (name, size) :: r => if (size <? 0)%Z then None else option_map (insert (name, Z.to_nat size)) (channels r)
  end.

Variable caps : list nat.
Notation n := (length caps).
Definition ccap (i : nat) : nat := nth i caps 0.

(** 618 at the receive; 619-620 before the send of v to channel i; 623-624 before the close of
    channel i; ended *)
Inductive cpc := KTop | KSend (v : A) (i : nat) | KClose (i : nat) | KEnd.
Record copy := Copy { cin : list A; kp : cpc; cb : nat -> list A; cc : nat -> bool }.
Inductive clabel := KTau | KSnd (i : nat) (v : A) | KOut (i : nat) (v : A) | KOutH (i : nat) (v : A) | KCls (i : nat) | KOutEnd (i : nat).
Definition cinit (xs : list A) : copy := Copy xs KTop (fun _ => []) (fun _ => false).

Inductive cstep : copy -> clabel -> copy -> Prop :=
| CRecv : forall x r b c, cstep (Copy (x :: r) KTop b c) KTau (Copy r (KSend x 0) b c)
| CRecvEnd : forall b c, cstep (Copy [] KTop b c) KTau (Copy [] (KClose 0) b c)
| CSend : forall r v i b c, i < n -> c i = false -> length (b i) < ccap i ->
    cstep (Copy r (KSend v i) b c) (KSnd i v) (Copy r (KSend v (S i)) (upd b i (b i ++ [v])) c)
| CHand : forall r v i b c, i < n -> c i = false -> ccap i = 0 -> b i = [] ->
    cstep (Copy r (KSend v i) b c) (KOutH i v) (Copy r (KSend v (S i)) b c)
| CNext : forall r v b c, cstep (Copy r (KSend v n) b c) KTau (Copy r KTop b c)
| CClose : forall r i b c, i < n -> c i = false -> cstep (Copy r (KClose i) b c) (KCls i) (Copy r (KClose (S i)) b (upd c i true))
| CEnd : forall r b c, cstep (Copy r (KClose n) b c) KTau (Copy r KEnd b c)
| COut : forall r p i v l b c, i < n -> b i = v :: l -> cstep (Copy r p b c) (KOut i v) (Copy r p (upd b i l) c)
| COutEnd : forall r p i b c, i < n -> b i = [] -> c i = true -> cstep (Copy r p b c) (KOutEnd i) (Copy r p b c).
(** about to send on, or close, a closed channel *)
Definition cfault (s : copy) : Prop :=
  exists i, i < n /\ cc s i = true /\ ((exists v, kp s = KSend v i) \/ kp s = KClose i).
End Copy.
Arguments clabel : clear implicits. Arguments copy : clear implicits.

(** ** Specification *)
Section Spec.
Context {A : Type}.
(** what the reader of copy i has received *)
Definition got (i : nat) (tr : list (clabel A)) : list A :=
  flat_map (fun l => match l with KOut j v | KOutH j v => if j =? i then [v] else [] | _ => [] end) tr.
Definition closings (i : nat) (tr : list (clabel A)) : nat :=
  length (filter (fun l => match l with KCls j => j =? i | _ => false end) tr).
(** the step needs no reader outside R *)
Definition reads_in (R : nat -> Prop) (l : clabel A) : Prop := match l with KOut i _ | KOutH i _ | KOutEnd i => R i | _ => True end.
Definition moves (l : clabel A) : bool := match l with KOutEnd _ => false | _ => true end.
End Spec.
