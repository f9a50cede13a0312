(** * Goroutines connected by channels in a chain

    Semantics used for xstream: a chain of goroutines, each reading the channel of the one
    before it and writing its own channel, with Go's channel rules: a send needs room in the
    buffer or, without buffer, a receiver that is there; a receive from a closed and drained
    channel reports closed; sending on or closing a closed channel panics.  The first
    goroutine's input is a closed empty channel (such as Empty()); sources do not read.
    The last channel is read by the environment.  Any enabled goroutine may move. *)
From Coq Require Import List Bool Arith Lia.
From Verif Require Import Trans.
Import ListNotations.

Section Net.
Context {V E : Type}.

(** What a goroutine does next: [for item := range in] is PRecv, [out <- v] is PSend,
    [close(out)] is PClose, a call of user code or another observable action is PCall; PDead
    stands for blocking for ever or panicking. *)
CoInductive proc :=
| PRecv (k : option V -> proc)
| PSend (v : V) (p : proc)
| PClose (p : proc)
| PCall (e : E) (p : proc)
| PEnd
| PDead.

Record chan := Ch { ccap : nat; cbuf : list V; ccl : bool }.
Definition stage : Type := proc * chan.

Inductive nlabel :=
| TSend (i : nat) (v : V) | THand (i : nat) (v : V) | TRecv (i : nat) (o : option V) | TClose (i : nat) | TCall (i : nat) (e : E)
(* goroutine i puts v into its buffer; hands v directly to goroutine i+1; receives; closes; calls *)
| TOut (v : V)       (* the environment receives v from the buffer *)
| TOutH (i : nat) (v : V) (* the last goroutine hands v to the environment directly *)
| TOutEnd.           (* the environment sees the last channel closed and drained *)

Inductive nstep : list stage -> nlabel -> list stage -> Prop :=
| NSend : forall l p v n b r, length b < n ->
    nstep (l ++ (PSend v p, Ch n b false) :: r) (TSend (length l) v) (l ++ (p, Ch n (b ++ [v]) false) :: r)
| NHand : forall l p v k c r,
    nstep (l ++ (PSend v p, Ch 0 [] false) :: (PRecv k, c) :: r) (THand (length l) v) (l ++ (p, Ch 0 [] false) :: (k (Some v), c) :: r)
| NRecv : forall l q n v b cl k c r,
    nstep (l ++ (q, Ch n (v :: b) cl) :: (PRecv k, c) :: r) (TRecv (S (length l)) (Some v)) (l ++ (q, Ch n b cl) :: (k (Some v), c) :: r)
| NRecvEnd : forall l q n k c r,
    nstep (l ++ (q, Ch n [] true) :: (PRecv k, c) :: r) (TRecv (S (length l)) None) (l ++ (q, Ch n [] true) :: (k None, c) :: r)
| NRecv0 : forall k c r, nstep ((PRecv k, c) :: r) (TRecv 0 None) ((k None, c) :: r)
| NClose : forall l p n b r, nstep (l ++ (PClose p, Ch n b false) :: r) (TClose (length l)) (l ++ (p, Ch n b true) :: r)
| NCall : forall l e p c r, nstep (l ++ (PCall e p, c) :: r) (TCall (length l) e) (l ++ (p, c) :: r)
| NOut : forall l q n v b cl, nstep (l ++ [(q, Ch n (v :: b) cl)]) (TOut v) (l ++ [(q, Ch n b cl)])
| NOutHand : forall l v p, nstep (l ++ [(PSend v p, Ch 0 [] false)]) (TOutH (length l) v) (l ++ [(p, Ch 0 [] false)])
| NOutEnd : forall l q n, nstep (l ++ [(q, Ch n [] true)]) TOutEnd (l ++ [(q, Ch n [] true)]).

(** A goroutine about to panic: send on a closed channel, close of a closed channel *)
Definition faulty (s : stage) : Prop :=
  match s with
  | (PSend _ _, c) | (PClose _, c) => ccl c = true
  | (PDead, _) => True
  | _ => False
  end.
Definition ended (s : stage) : Prop := fst s = PEnd.

(** A chain at its start: goroutines with the capacities of their channels *)
Definition start (l : list (proc * nat)) : list stage := map (fun x => (fst x, Ch (snd x) [] false)) l.

(** Send all of l, then go on *)
Fixpoint sends (l : list V) (p : proc) : proc := match l with [] => p | v :: l' => PSend v (sends l' p) end.
(** What has been read once the channel is closed: [for item := range in { items = append(items, item) }] *)
CoFixpoint collect (acc : list V) (k : list V -> proc) : proc :=
  PRecv (fun o => match o with Some v => collect (acc ++ [v]) k | None => k acc end).

Definition frob (p : proc) : proc :=
  match p with PRecv k => PRecv k | PSend v p => PSend v p | PClose p => PClose p | PCall e p => PCall e p | PEnd => PEnd | PDead => PDead end.
Lemma frob_eq : forall p, p = frob p.
Proof. intros []; reflexivity. Qed.
End Net.
Arguments proc : clear implicits. Arguments chan : clear implicits. Arguments stage : clear implicits. Arguments nlabel : clear implicits.
