(** * Specification of chains of goroutines

    What it means that a chain delivers a list, whatever the schedule. *)
From Coq Require Import List Bool Arith.
From Verif Require Import Trans NetModel.
Import ListNotations.

Section Spec.
Context {V E : Type}.
Notation proc := (proc V E). Notation stage := (stage V E). Notation nlabel := (nlabel V E).

Inductive act := AcS (v : V) | AcR (o : option V) | AcX | AcC (e : E).
Definition outs (es : list act) : list V := flat_map (fun e => match e with AcS v => [v] | _ => [] end) es.
Definition calls (es : list act) : list E := flat_map (fun e => match e with AcC v => [v] | _ => [] end) es.

(** What goroutine i does in one step: send, receive, close, call *)
Definition ev_of (i : nat) (l : nlabel) : list act :=
  match l with
  | TSend j v | TOutH j v => if i =? j then [AcS v] else []
  | THand j v => if i =? j then [AcS v] else if i =? S j then [AcR (Some v)] else []
  | TRecv j o => if i =? j then [AcR o] else []
  | TClose j => if i =? j then [AcX] else []
  | TCall j e => if i =? j then [AcC e] else []
  | _ => []
  end.
Definition acts (i : nat) (tr : list nlabel) : list act := flat_map (ev_of i) tr.
(** What the environment has received *)
Definition out_of (l : nlabel) : list V := match l with TOut v | TOutH _ v => [v] | _ => [] end.
Definition delivered (tr : list nlabel) : list V := flat_map out_of tr.
Definition prefix {A} (a b : list A) : Prop := exists c, b = a ++ c.

Definition is_outend (l : nlabel) : bool := match l with TOutEnd => true | _ => false end.
(** Goroutine i performs exactly these actions: always a prefix of them, and all when every goroutine ended *)
Definition does (ps : list (proc * nat)) (i : nat) (plan : list act) : Prop :=
  forall tr s, steps nstep (start ps) tr s ->
    prefix (acts i tr) plan /\ (Forall ended s -> acts i tr = plan).

(** No goroutine ever panics or blocks for ever while the environment keeps reading, every
    schedule is finite (apart from the environment asking again after the end), and when
    nothing more can happen all goroutines have ended with all channels drained. *)
Record sound (ps : list (proc * nat)) : Prop := {
  so_safe : forall tr s, steps nstep (start ps) tr s -> Forall (fun st => ~ faulty st) s;
  so_live : forall tr s, steps nstep (start ps) tr s ->
    (exists l s', l <> TOutEnd /\ nstep s l s') \/ (Forall ended s /\ Forall (fun st => cbuf (snd st) = []) s);
  so_bound : exists N, forall tr s, steps nstep (start ps) tr s -> length (filter (fun l => negb (is_outend l)) tr) <= N }.

(** Whatever the schedule, the environment receives exactly ys, in order, and then sees the
    channel closed; and the chain is sound *)
Record runs_to (ps : list (proc * nat)) (ys : list V) : Prop := {
  rt_sound : sound ps;
  rt_prefix : forall tr s, steps nstep (start ps) tr s -> prefix (delivered tr) ys;
  rt_closed : forall tr s s', steps nstep (start ps) tr s -> nstep s TOutEnd s' -> delivered tr = ys;
  rt_end : forall tr s, steps nstep (start ps) tr s -> Forall ended s -> Forall (fun st => cbuf (snd st) = []) s ->
    delivered tr = ys /\ nstep s TOutEnd s }.

(** Reading xs up to and including the closed channel *)
Definition reads (xs : list V) : list act := map (fun x => AcR (Some x)) xs ++ [AcR None].
(** A source that sends xs and closes *)
Definition source (xs : list V) : proc := sends xs (PClose PEnd).
(** Alone between any such source of xs and a reader, and with any buffer sizes, the operator
    delivers ys *)
Definition works (p : proc) (xs ys : list V) : Prop :=
  forall n m, runs_to [(source xs, n); (p, m)] ys.
Definition implements (p : proc) (F : list V -> list V) : Prop := forall xs, works p xs (F xs).
(** Operators one after the other, each correct alone on what the previous one delivers *)
Inductive chained : list (proc * nat) -> list V -> list V -> Prop :=
| chained_nil : forall xs, chained [] xs xs
| chained_cons : forall p n ps xs ys zs, works p xs ys -> chained ps ys zs -> chained ((p, n) :: ps) xs zs.
(** A terminal operation, alone behind such a source: it performs exactly these actions *)
Definition performs (p : proc) (xs : list V) (plan : list act) : Prop :=
  forall n m, sound [(source xs, n); (p, m)] /\ does [(source xs, n); (p, m)] 1 plan.
End Spec.
Arguments act : clear implicits.
