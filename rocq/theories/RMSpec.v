(** * Specification for C58-C60: what a history of a ResourceManager says

    Nothing here looks at the manager's state; everything is a function of the trace. *)
From Coq Require Import List Bool Lia Arith.
From stdpp Require Import gmap.
From Verif Require Import RMModel.

(** The resource a history left under key k: the last store, unless removed or closed since *)
Definition content1 (k : nat) (c : option closer) (l : rlabel) : option closer :=
  match l with
  | LStored _ k' r => if k' =? k then Some r else c
  | LRemoved _ k' _ => if k' =? k then None else c
  | LNil _ => None
  | _ => c
  end.
Definition content (k : nat) (tr : list rlabel) : option closer := fold_left (content1 k) tr None.

(** The Close calls made on resources *)
Definition close1 (l : rlabel) : list (nat * nat * closed) := match l with LClosed _ k r c => [(k, r, c)] | _ => [] end.
Definition closes (tr : list rlabel) : list (nat * nat * closed) := concat (map close1 tr).
Definition close_errs (l : list (nat * nat * closed)) : list nat := concat (map (fun x => match snd x with ClErr e => [e] | _ => [] end) l).
Definition close_key (x : nat * nat * closed) : nat := fst (fst x).
Definition close_res (x : nat * nat * closed) : nat * nat := fst x.

(** The events that change the contents *)
Definition changes (l : rlabel) : Prop := match l with LStored _ _ _ | LRemoved _ _ _ | LNil _ => True | _ => False end.

(** A panic while the write lock is held *)
Definition stuck_event (l : rlabel) : Prop :=
  match l with LNilWrite _ _ | LNilClose _ _ => True | LClosed _ _ _ ClPanic => True | _ => False end.

(** What goroutine t's last create gave, if it has finished *)
Definition last_create1 (t : nat) (c : option (nat * created)) (l : rlabel) : option (nat * created) :=
  match l with
  | LCreateEnd u k _ c' => if u =? t then Some (k, c') else c
  | LCreateStart u _ => if u =? t then None else c
  | LGet u _ => if u =? t then None else c
  | _ => c
  end.
Definition last_create (t : nat) (tr : list rlabel) : option (nat * created) := fold_left (last_create1 t) tr None.

(** What goroutine t's last removal found *)
Definition last_removed1 (t : nat) (c : option (nat * bool)) (l : rlabel) : option (nat * bool) :=
  match l with
  | LRemoved u k b => if u =? t then Some (k, b) else c
  | LRemove u _ => if u =? t then None else c
  | _ => c
  end.
Definition last_removed (t : nat) (tr : list rlabel) : option (nat * bool) := fold_left (last_removed1 t) tr None.
