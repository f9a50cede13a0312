(** * Model of SplitSteam with its inner streams (xstream/xstream.go:211-239)

    SplitSteam(n), n >= 1, hands out streams of up to n items.  Here these streams are channels
    of their own, which whoever received them may read at any time, in any order, or not at all.
    (XStreamModel takes such a stream for the list of its items; this model shows that this is
    what a reader sees.)

    Simplifications: the receiver's channel is a list of items, received one by one at arbitrary
    moments and then closed; n is a natural number; a receiver that waits on a buffered channel
    gets an item when it has been put into the buffer. *)
From Coq Require Import List Bool Arith Lia.
From Verif Require Import Trans NetModel.
Import ListNotations.

Section Chunk.
Context {V : Type}.

(** Where the goroutine is *)
Inductive cpc :=
| QTop              (* xstream.go:221: for item := range s.source *)
| QPut (x : V)      (* xstream.go:222: chunkSource <- item *)
| QTest             (* xstream.go:223: if len(chunkSource) == n *)
| QSend             (* xstream.go:225: source <- Range(chunkSource) *)
| QCls              (* xstream.go:226: close(chunkSource) *)
| QNew              (* xstream.go:228: chunkSource = make(chan interface{}, n) *)
| QRest             (* xstream.go:231: if len(chunkSource) != 0 *)
| QSendL            (* xstream.go:232: source <- Range(chunkSource) *)
| QClsL             (* xstream.go:233: close(chunkSource) *)
| QOut              (* xstream.go:235: close(source) *)
| QOver.

(** [inp]: items still to come from s.source; [cur]: which channel chunkSource is, channels being
    numbered as they are made; [chs]: the channels made so far *)
Record cst := CSt { inp : list V; pc : cpc; cur : nat; chs : nat -> chan V }.

Inductive clabel :=
| LOwn                  (* a step of the goroutine without any partner *)
| LHand (i : nat)       (* a reader of the outer stream receives stream i *)
| LEnd                  (* a reader of the outer stream sees it closed *)
| LIn (i : nat) (v : V) (* a reader of stream i receives v *)
| LInEnd (i : nat).     (* a reader of stream i sees it closed *)

Definition put (c : chan V) (x : V) : chan V := Ch (ccap c) (cbuf c ++ [x]) (ccl c).
Definition closed (c : chan V) : chan V := Ch (ccap c) (cbuf c) true.

(** One step; [held]: the streams received from the outer stream so far *)
Inductive cstep (n : nat) : cst * list nat -> clabel -> cst * list nat -> Prop :=
| Q_top : forall x l c h held, cstep n (CSt (x :: l) QTop c h, held) LOwn (CSt l (QPut x) c h, held)
| Q_end : forall c h held, cstep n (CSt [] QTop c h, held) LOwn (CSt [] QRest c h, held)
| Q_put : forall x l c h held, length (cbuf (h c)) < ccap (h c) -> ccl (h c) = false ->
    cstep n (CSt l (QPut x) c h, held) LOwn (CSt l QTest c (upd h c (put (h c) x)), held)
| Q_full : forall l c h held, length (cbuf (h c)) = n -> cstep n (CSt l QTest c h, held) LOwn (CSt l QSend c h, held)
| Q_more : forall l c h held, length (cbuf (h c)) <> n -> cstep n (CSt l QTest c h, held) LOwn (CSt l QTop c h, held)
| Q_hand : forall l c h held, cstep n (CSt l QSend c h, held) (LHand c) (CSt l QCls c h, held ++ [c])
| Q_close : forall l c h held, ccl (h c) = false ->
    cstep n (CSt l QCls c h, held) LOwn (CSt l QNew c (upd h c (closed (h c))), held)
| Q_new : forall l c h held, cstep n (CSt l QNew c h, held) LOwn (CSt l QTop (S c) (upd h (S c) (Ch n [] false)), held)
| Q_rest : forall l c h held, length (cbuf (h c)) <> 0 -> cstep n (CSt l QRest c h, held) LOwn (CSt l QSendL c h, held)
| Q_none : forall l c h held, length (cbuf (h c)) = 0 -> cstep n (CSt l QRest c h, held) LOwn (CSt l QOut c h, held)
| Q_handl : forall l c h held, cstep n (CSt l QSendL c h, held) (LHand c) (CSt l QClsL c h, held ++ [c])
| Q_closel : forall l c h held, ccl (h c) = false ->
    cstep n (CSt l QClsL c h, held) LOwn (CSt l QOut c (upd h c (closed (h c))), held)
| Q_out : forall l c h held, cstep n (CSt l QOut c h, held) LOwn (CSt l QOver c h, held)
| Q_over : forall l c h held, cstep n (CSt l QOver c h, held) LEnd (CSt l QOver c h, held)
| Q_in : forall l p c h held i v b, In i held -> cbuf (h i) = v :: b ->
    cstep n (CSt l p c h, held) (LIn i v) (CSt l p c (upd h i (Ch (ccap (h i)) b (ccl (h i)))), held)
| Q_inend : forall l p c h held i, In i held -> cbuf (h i) = [] -> ccl (h i) = true ->
    cstep n (CSt l p c h, held) (LInEnd i) (CSt l p c h, held).

(** about to panic: a send on or a close of a closed channel *)
Definition cfault (s : cst) : Prop :=
  match pc s with QPut _ | QCls | QClsL => ccl (chs s (cur s)) = true | _ => False end.

(** xstream.go:218-220: nothing done, one chunk channel made *)
Definition cinit (n : nat) (xs : list V) : cst * list nat := (CSt xs QTop 0 (fun _ => Ch n [] false), []).
End Chunk.
Arguments cst : clear implicits. Arguments cpc : clear implicits. Arguments clabel : clear implicits.
