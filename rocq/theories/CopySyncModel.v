(** * What Copy's goroutine and the readers of the copies do to the channels

    The steps of CopyModel (xstream.go:604-629) in the terms of SyncSpec: Copy's goroutine is number 0, the reader of
    copy i is number i + 1, and copy i is channel i.  That the goroutine received the item v from the source
    (xstream.go:618) is the label v; the source's side of it is C113's or C107's matter. *)
From Coq Require Import List Arith.
From Verif Require Import CopyModel SyncSpec.
Import ListNotations.

Section CopySync.
Context {A : Type}.
Variable caps : list nat.
Notation kev := (ev Empty_set nat A).
Definition k_acts (s : copy A) (l : clabel A) : list kev :=
  match l with
  | KTau => match kp s, cin s with KTop, x :: _ => [(0, ALab x)] | _, _ => [] end
  | KSnd i _ => [(0, APut i (ccap caps i))]
  | KOutH i _ => [(0, APut i 0); (S i, AGet i)]
  | KOut i _ => [(S i, AGet i)]
  | KCls i => [(0, AClose i)]
  | KOutEnd i => [(S i, AEnd i)]
  end.
(** The event is a receive from the source. *)
Definition taken (a : act Empty_set nat A) : Prop := exists x, a = ALab x.
End CopySync.
