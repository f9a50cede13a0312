(** * What the steps of xmapreduce.Map do to shared memory

    The steps of MapRedModel.v, each with the channel operations, WaitGroup operations and go statements
    it consists of; [does_step] and [step_does] in MapRedSyncProofs.v say that these are the same steps.
    Goroutine 0 is the generator's, 1 reads the output, 2 is doMap's, 3 ends ctx; for the j-th
    item there is the goroutine of Worker.Run, which executes Do, and the one Do starts. *)
From Coq Require Import List Bool Arith.
From Verif Require Import Trans MapRedModel SyncSpec.
Import ListNotations.
Open Scope nat_scope.

(** xmapreduce.go:80 source; 68 collector; 91 waitGroup; xworker.go:32 w.c; ctx.Done(); do.go:39, 40 for the j-th item *)
Inductive mobject := MSrc | MCol | MWg | MSlots | MCtx | MDone (j : nat) | MPanic (j : nat).
(** What is seen: the generator sends the j-th item; the map function is called for it, returns, panics (its own panic, or that of
    Write on the closed channel); it writes v; the reader gets v, or finds the end; ctx ends *)
Inductive mseen {X V : Type} := BGen (j : nat) (x : X) | BCall (j : nat) (x : X) | BRet (j : nat) (x : X) | BPan (j : nat) (x : X) | BSend (j : nat) (v : V) | BOut (v : V) | BEnd | BCancel.
Arguments mseen : clear implicits.

Definition gener := 0.
Definition reader := 1.
Definition domap := 2.
Definition canceller := 3.
Definition runner (j : nat) := 4 + 2 * j.
Definition mapper (j : nat) := 5 + 2 * j.

Section MapRedSync.
Context {X V : Type}.
Variable f : X -> mprog V.
Variable w : nat.
Notation ev := (SyncSpec.ev unit mobject (mseen X V)).

Inductive does : mr X V -> xlabel X V -> mr X V -> list ev -> Prop :=
| YCancel : forall g gc m s n l b c, does (MR g gc false m s n l b c false) XCancel (MR g gc true m s n l b c false) [(canceller, ALab BCancel); (canceller, AClose MCtx)]
(* 82-84 *)
| YGenEnd : forall ca m s n l b c, does (MR [] false ca m s n l b c false) XGen (MR [] true ca m s n l b c false) [(gener, AClose MSrc)]
(* 102 *)
| YDone : forall g gc s n l b c, does (MR g gc true MTop s n l b c false) XLib (MR g gc true MWait s n l b c false) [(domap, AEnd MCtx)]
(* 104; source has no buffer (80) *)
| YItem : forall x g gc ca s n l b c, does (MR (x :: g) gc ca MTop s n l b c false) XLib (MR g gc ca (MHave x) s n l b c false)
    [(gener, ALab (BGen (length l) x)); (gener, APut MSrc 0); (domap, AGet MSrc)]
(* 104-107 *)
| YEnd : forall g ca s n l b c, does (MR g true ca MTop s n l b c false) XLib (MR g true ca MWait s n l b c false) [(domap, AEnd MSrc)]
(* 108 *)
| YAdd : forall x g gc ca s n l b c, does (MR g gc ca (MHave x) s n l b c false) XLib (MR g gc ca (MAcq x) s (S n) l b c false) []
(* xworker.go:37, 39 *)
| YAcq : forall x g gc ca s n l b c, s < w ->
    does (MR g gc ca (MAcq x) s n l b c false) XLib (MR g gc ca MTop (S s) n (l ++ [T x ONew INone]) b c false) [(domap, APut MSlots w); (domap, AGo (runner (length l)))]
(* 94-95 *)
| YClose : forall g gc ca s l b, does (MR g gc ca MWait s 0 l b false false) XClose (MR g gc ca MEnd s 0 l b true false) [(domap, AWaited MWg); (domap, AClose MCol)]
(* do.go:34 *)
| YTooLate : forall x i g gc m s n l1 l2 b c,
    does (MR g gc true m s n (l1 ++ T x ONew i :: l2) b c false) XLib (MR g gc true m s n (l1 ++ T x (ODef false) i :: l2) b c false) [(runner (length l1), AEnd MCtx)]
(* do.go:42 *)
| YGo : forall x i g gc m s n l1 l2 b c,
    does (MR g gc false m s n (l1 ++ T x ONew i :: l2) b c false) XLib (MR g gc false m s n (l1 ++ T x OSel IGo :: l2) b c false) [(runner (length l1), AGo (mapper (length l1)))]
(* do.go:49 *)
| YCall : forall x o g gc ca m s n l1 l2 b c,
    does (MR g gc ca m s n (l1 ++ T x o IGo :: l2) b c false) (XCall (length l1) x) (MR g gc ca m s n (l1 ++ T x o (IRun (f x)) :: l2) b c false) [(mapper (length l1), ALab (BCall (length l1) x))]
(* do.go:53, 55, 57 *)
| YSelPanic : forall x g gc ca m s n l1 l2 b c,
    does (MR g gc ca m s n (l1 ++ T x OSel IPan :: l2) b c false) XLib (MR g gc ca m s n (l1 ++ T x (ODef true) IPan :: l2) b c false) [(runner (length l1), ARecv (MPanic (length l1)))]
| YSelDone : forall x g gc ca m s n l1 l2 b c,
    does (MR g gc ca m s n (l1 ++ T x OSel IDone :: l2) b c false) XLib (MR g gc ca m s n (l1 ++ T x (ODef false) IDone :: l2) b c false) [(runner (length l1), ARecv (MDone (length l1)))]
| YSelCtx : forall x i g gc m s n l1 l2 b c,
    does (MR g gc true m s n (l1 ++ T x OSel i :: l2) b c false) XLib (MR g gc true m s n (l1 ++ T x (ODef false) i :: l2) b c false) [(runner (length l1), AEnd MCtx)]
(* 112 *)
| YWgDone : forall x d i g gc ca m s n l1 l2 b c,
    does (MR g gc ca m s (S n) (l1 ++ T x (ODef d) i :: l2) b c false) XLib (MR g gc ca m s n (l1 ++ T x (ORel d) i :: l2) b c false) [(runner (length l1), ADone MWg)]
(* xworker.go:45 *)
| YFree : forall x i g gc ca m s n l1 l2 b c,
    does (MR g gc ca m (S s) n (l1 ++ T x (ORel false) i :: l2) b c false) XLib (MR g gc ca m s n (l1 ++ T x OEnd i :: l2) b c false) [(runner (length l1), AGet MSlots)]
| YCrash : forall x i g gc ca m s n l1 l2 b c,
    does (MR g gc ca m (S s) n (l1 ++ T x (ORel true) i :: l2) b c false) XCrash (MR g gc ca m s n (l1 ++ T x OEnd i :: l2) b c true) [(runner (length l1), AGet MSlots)]
(* do.go:49; 45 *)
| YRet : forall x o g gc ca m s n l1 l2 b c,
    does (MR g gc ca m s n (l1 ++ T x o (IRun PRet) :: l2) b c false) (XRetn (length l1) x) (MR g gc ca m s n (l1 ++ T x o IDone :: l2) b c false)
      [(mapper (length l1), ALab (BRet (length l1) x)); (mapper (length l1), ASend (MDone (length l1)))]
| YPanic : forall x o g gc ca m s n l1 l2 b c,
    does (MR g gc ca m s n (l1 ++ T x o (IRun PPanic) :: l2) b c false) (XPanic (length l1) x) (MR g gc ca m s n (l1 ++ T x o IPan :: l2) b c false)
      [(mapper (length l1), ALab (BPan (length l1) x)); (mapper (length l1), ASend (MPanic (length l1)))]
(* writebarrier.go:46; 48; 49 *)
| YWriteNo : forall x o v k g gc m s n l1 l2 b c,
    does (MR g gc true m s n (l1 ++ T x o (IRun (PWrite v k)) :: l2) b c false) (XWrite (length l1) (Some false)) (MR g gc true m s n (l1 ++ T x o (IRun (k false)) :: l2) b c false) [(mapper (length l1), AEnd MCtx)]
| YWriteGo : forall x o v k g gc m s n l1 l2 b c,
    does (MR g gc false m s n (l1 ++ T x o (IRun (PWrite v k)) :: l2) b c false) (XWrite (length l1) None) (MR g gc false m s n (l1 ++ T x o (IBlk v k) :: l2) b c false) []
| YSend : forall x o v k g gc ca m s n l1 l2 b, length b < w ->
    does (MR g gc ca m s n (l1 ++ T x o (IBlk v k) :: l2) b false false) (XWrite (length l1) (Some true)) (MR g gc ca m s n (l1 ++ T x o (IRun (k true)) :: l2) (b ++ [v]) false false)
      [(mapper (length l1), ALab (BSend (length l1) v)); (mapper (length l1), APut MCol w)]
| YSendClosed : forall x o v k g gc ca m s n l1 l2 b,
    does (MR g gc ca m s n (l1 ++ T x o (IBlk v k) :: l2) b true false) (XWrite (length l1) None) (MR g gc ca m s n (l1 ++ T x o IPan :: l2) b true false)
      [(mapper (length l1), ALab (BPan (length l1) x)); (mapper (length l1), ASend (MPanic (length l1)))]
(* the reader *)
| YOut : forall v g gc ca m s n l b c, does (MR g gc ca m s n l (v :: b) c false) (XOut v) (MR g gc ca m s n l b c false) [(reader, AGet MCol); (reader, ALab (BOut v))]
| YOutEnd : forall g gc ca m s n l, does (MR g gc ca m s n l [] true false) XOutEnd (MR g gc ca m s n l [] true false) [(reader, AEnd MCol); (reader, ALab BEnd)].

(** Steps labelled with what they do *)
Definition mr_step (s : mr X V) (l : xlabel X V * list ev) (s' : mr X V) : Prop := does s (fst l) s' (snd l).
Definition mr_acts (s : mr X V) (l : xlabel X V * list ev) : list ev := snd l.
End MapRedSync.
