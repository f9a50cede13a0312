(** * What the steps of xstream.go Walk (408-439) and Concat (365-395) do to shared memory

    The model in FanModel.v takes steps; here is which channel operation, WaitGroup operation or start
    of a goroutine each of them is.  Goroutine 0 starts the workers, goroutine 1 reads the result,
    goroutine 2+j is the j-th worker.  startGoroutine (xstream.go:84-86) submits to a pool of
    goroutines, which orders at least what a go statement orders; that two workers may run in one
    goroutine of that pool would only add to happens-before. *)
From Coq Require Import List Bool Arith.
From Verif Require Import Trans FanModel SyncSpec.
Import ListNotations.
Open Scope nat_scope.

(** xstream.go:412 / 367 wg; 413 pool; 410 / 366 the result *)
Inductive object := MWg | MPool | MOut.
(** What is seen: an item (or stream) is taken for worker j; worker j begins with it, returns from it, writes v; the reader gets v, or the end *)
Inductive seenev {X V : Type} := BTake (j : nat) (x : X) | BStart (j : nat) (x : X) | BRet (j : nat) (x : X) | BSend (j : nat) (v : V) | BOut (v : V) | BEnd.
Arguments seenev : clear implicits.

Section FanSync.
Context {X V : Type}.
Notation ev := (SyncSpec.ev unit object (seenev X V)).
Variable prog : X -> list (wact V).
Variable lim : option nat.
Variable cap : nat.
Definition starter := 0.
Definition reader := 1.
Definition worker (j : nat) := 2 + j.

(** A step and the state it leads to, which tells the steps apart that have no label of their own. *)
Definition fan_step (s : fan X V) (l : flabel X V * fan X V) (s' : fan X V) : Prop := fstep prog lim cap s (fst l) s' /\ s' = snd l.

Definition tag (w : wst X V) : nat := match w with WNew _ => 0 | WRun _ _ => 1 | WRet _ => 2 | WRel _ => 3 | WEnd _ => 4 end.
(** The worker that went on to another point of its code, and where it is. *)
Fixpoint moved (j : nat) (l l' : list (wst X V)) : option (nat * wst X V) :=
  match l, l' with
  | w :: l, w' :: l' => if tag w =? tag w' then moved (S j) l l' else Some (j, w')
  | _, _ => None
  end.
(** The operations on [pool]: a channel of capacity lim; Concat has none. *)
Definition acquire (t : nat) : list ev := match lim with Some w => [(t, APut MPool w)] | None => [] end.
Definition release (t : nat) : list ev := match lim with Some _ => [(t, AGet MPool)] | None => [] end.
(** A step of the model without a label of its own, from s to s'. *)
Definition fan_tau (s s' : fan X V) : list ev :=
  match dp s, dp s' with
  | DTop, DRecv => acquire starter                                     (* 416 *)
  | DRecv, DHave x | DTop, DHave x => [(starter, ALab (BTake (length (ws s)) x))]  (* 417; 369, 382 *)
  | DRel, DWait => release starter                                     (* 419 *)
  | DHave _, DTop => [(starter, AGo (worker (length (ws s))))]         (* 425; 372, 382 *)
  | DRecv, DRel | DTop, DWait => []                                    (* 418; 389: no more streams *)
  | _, _ =>
      match moved 0 (ws s) (ws s') with
      | Some (j, WRel _) => [(worker j, ADone MWg)]                    (* 427; 376, 386 *)
      | Some (j, WEnd _) => release (worker j)                         (* 428 *)
      | _ => []
      end
  end.
Definition fan_acts (s : fan X V) (l : flabel X V * fan X V) : list ev :=
  match fst l with
  | LTau => fan_tau s (snd l)
  | LStart j x => [(worker j, ALab (BStart j x))]
  | LRet j x => [(worker j, ALab (BRet j x))]
  | LSend j v => [(worker j, ALab (BSend j v)); (worker j, APut MOut cap)]            (* in f; 374, 384 *)
  | LOut v => [(reader, AGet MOut); (reader, ALab (BOut v))]
  | LOutH j v => [(worker j, ALab (BSend j v)); (worker j, APut MOut cap); (reader, AGet MOut); (reader, ALab (BOut v))]
  | LClose => [(starter, AWaited MWg); (starter, AClose MOut)]                        (* 434, 435; 389, 390 *)
  | LOutEnd => [(reader, AEnd MOut); (reader, ALab BEnd)]
  end.
End FanSync.
