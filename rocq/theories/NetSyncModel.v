(** * What the goroutines of a chain of stream operators do to their channels

    The steps of NetModel, in the terms of SyncSpec: goroutine i of the chain sends on channel i and closes it,
    goroutine i + 1 receives from it; the number after the last one is the caller's, who reads the last channel.
    The channels are those the operators make (xstream.go:103-117, 125-132 and the others cited in XStreamModel).
    A call of user code is a label.  The operators share nothing but the channels, so there are no places in memory.
    Sort, Reverse and Merge read their input in the caller's goroutine and then start Of's (xstream.go:242-252, 501-513): here
    one goroutine, since the go statement orders the two.  Other orders of go statements are left out; they would add order only.
    The receive from the closed channel of Empty (xstream.go:37-41) orders nothing and is left out. *)
From Coq Require Import List Bool Arith.
From Verif Require Import NetModel SyncSpec.
Import ListNotations.

Section NetSync.
Context {V E : Type}.
Notation nev := (ev Empty_set nat E).
Definition capof (s : list (stage V E)) (i : nat) : nat := match nth_error s i with Some (_, c) => ccap c | None => 0 end.
Definition n_acts (s : list (stage V E)) (l : nlabel V E) : list nev :=
  match l with
  | TSend i _ => [(i, APut i (capof s i))]
  | THand i _ => [(i, APut i 0); (S i, AGet i)]
  | TRecv (S i) (Some _) => [(S i, AGet i)]
  | TRecv (S i) None => [(S i, AEnd i)]
  | TRecv 0 _ => []
  | TClose i => [(i, AClose i)]
  | TCall i e => [(i, ALab e)]
  | TOut _ => [(length s, AGet (length s - 1))]
  | TOutH i _ => [(i, APut i 0); (S i, AGet i)]
  | TOutEnd => [(length s, AEnd (length s - 1))]
  end.
Definition n_init (s : list (stage V E)) : Prop := exists l, s = start l.

(** A goroutine that closes its channel only after it has seen its input closed, and then ends.  [after]: from there on. *)
CoInductive after : proc V E -> Prop :=
| af_send : forall v p, after p -> after (PSend v p)
| af_call : forall e p, after p -> after (PCall e p)
| af_close : after (PClose PEnd)
| af_end : after PEnd
| af_dead : after PDead.
CoInductive calm : proc V E -> Prop :=
| ca_recv : forall k, (forall v, calm (k (Some v))) -> after (k None) -> calm (PRecv k)
| ca_send : forall v p, calm p -> calm (PSend v p)
| ca_call : forall e p, calm p -> calm (PCall e p)
| ca_end : calm PEnd
| ca_dead : calm PDead.
(** A chain whose first goroutine only sends, or reads the closed input; the others are calm. *)
Definition calm_chain (l : list (proc V E * nat)) : Prop := match l with [] => False | (p, _) :: r => (after p \/ calm p) /\ Forall (fun x => calm (fst x)) r end.
End NetSync.
