(** * Model of xio/buffer.go

    bufio.Reader and bufio.Writer are modelled by their documented behaviour: a buffer, a
    sticky error and the current underlying reader/writer; Reset discards buffered data
    and error and switches the underlying object; sync.Pool may hand out any element put
    before, report empty at any time, and lose elements.  The inner loop structure of
    bufio (how a Read/Write call splits into fills and flushes) is left open: fills and
    emissions may happen in any portions the buffer allows. *)
From Coq Require Import ZArith List Bool Lia.
From Verif Require Import GoBase Trans.
Import ListNotations.
Open Scope Z_scope.

(** An io.Reader given to the package: a raw stream, or another bufio.Reader; likewise an
    io.Writer: a raw sink, or another bufio.Writer.  What a bufio object does with the
    bytes another one asks it for or hands it is left open: RFill (WEmit) with [Obj i] does
    not change object i, whose own reads (writes) are steps of their own. *)
Inductive source := Raw (n : nat) | Obj (id : nat).

(** ** Readers *)
Record robj := RO { rsize : Z; rsrc : option source; rpend : str; rerr : option Z }.
Record rstate := RS { robjs : nat -> robj; rpool : list nat; rnext : nat; rheld : list nat }.

(** bufio.NewReaderSize: sizes below 16 become 16. *)
Definition norm_size (n : Z) : Z := if n <? 16 then 16 else n.
(** buffer.go:47: bufio.NewReader uses 4096 bytes. *)
Definition default_size : Z := 4096.

Inductive rlabel :=
| RGet (size : Z) (src : source) (id : nat)     (* GetBufferReaderSize / GetBufferReader returned id *)
| RPut (id : nat)                               (* PutBufferReader *)
| RNew (size : Z) (src : source) (id : nat)     (* user code calls bufio.NewReaderSize itself *)
| RFill (id : nat) (src : source) (bs : str) (e : option Z) (* the underlying reader delivered bs and e *)
| RRead (id : nat) (bs : str)                   (* a read call handed bs to the user *)
| RErr (id : nat) (e : Z)                       (* a read call reported the sticky error *)
| RPoolDrop.

Definition set_robj (s : rstate) (id : nat) (o : robj) : nat -> robj := upd (robjs s) id o.

(** bufio.NewReaderSize returns its argument unchanged if that already is a bufio.Reader
    with a large enough buffer. *)
Definition reuses (s : rstate) (size : Z) (src : source) : option nat :=
  match src with
  | Raw _ => None
  | Obj i => if size <=? rsize (robjs s i) then Some i else None
  end.

Inductive rstep : rstate -> rlabel -> rstate -> Prop :=
| RSGetPool : forall s p1 id p2 size src, rpool s = p1 ++ id :: p2 ->   (* buffer.go:32-36 / 42-46 *)
    rstep s (RGet size src id)
      (RS (set_robj s id (RO (rsize (robjs s id)) (Some src) [] None)) (p1 ++ p2) (rnext s) (id :: rheld s))
| RSGetNew : forall s size src, reuses s size src = None ->              (* buffer.go:37 / 47 *)
    rstep s (RGet size src (rnext s))
      (RS (set_robj s (rnext s) (RO (norm_size size) (Some src) [] None)) (rpool s) (S (rnext s)) (rnext s :: rheld s))
| RSGetSame : forall s size src i, reuses s size src = Some i ->         (* buffer.go:37 / 47, same object *)
    rstep s (RGet size src i) (RS (robjs s) (rpool s) (rnext s) (i :: rheld s))
| RSNew : forall s size src, reuses s size src = None ->
    rstep s (RNew size src (rnext s))
      (RS (set_robj s (rnext s) (RO (norm_size size) (Some src) [] None)) (rpool s) (S (rnext s)) (rnext s :: rheld s))
| RSPut : forall s h1 id h2, rheld s = h1 ++ id :: h2 ->                 (* buffer.go:51-54 *)
    rstep s (RPut id)
      (RS (set_robj s id (RO (rsize (robjs s id)) None [] None)) (id :: rpool s) (rnext s) (h1 ++ h2))
| RSFill : forall s id src bs e, In id (rheld s) -> rsrc (robjs s id) = Some src -> rerr (robjs s id) = None ->
    zlen (rpend (robjs s id)) + zlen bs <= rsize (robjs s id) ->
    rstep s (RFill id src bs e)
      (RS (set_robj s id (RO (rsize (robjs s id)) (Some src) (rpend (robjs s id) ++ bs) e)) (rpool s) (rnext s) (rheld s))
| RSRead : forall s id bs rest, In id (rheld s) -> rpend (robjs s id) = bs ++ rest ->
    rstep s (RRead id bs)
      (RS (set_robj s id (RO (rsize (robjs s id)) (rsrc (robjs s id)) rest (rerr (robjs s id)))) (rpool s) (rnext s) (rheld s))
| RSErr : forall s id e, In id (rheld s) -> rpend (robjs s id) = [] -> rerr (robjs s id) = Some e ->
    rstep s (RErr id e)
      (RS (set_robj s id (RO (rsize (robjs s id)) (rsrc (robjs s id)) [] None)) (rpool s) (rnext s) (rheld s))
| RSDrop : forall s p1 id p2, rpool s = p1 ++ id :: p2 ->
    rstep s RPoolDrop (RS (robjs s) (p1 ++ p2) (rnext s) (rheld s)).

Definition rinit (s : rstate) : Prop := rpool s = [] /\ rnext s = 0%nat /\ rheld s = [].

(** ** Writers

    As for readers: the destination may itself be a bufio.Writer. *)
Record wobj := WO { wsize : Z; wdst : option source; wbuf : str; werr : option Z }.
Record wstate := WS { wobjs : nat -> wobj; wpool : list nat; wnext : nat; wheld : list nat }.

(** bufio.NewWriterSize: non-positive sizes become 4096. *)
Definition norm_wsize (n : Z) : Z := if n <=? 0 then 4096 else n.

Inductive wlabel :=
| WGet (size : Z) (dst : source) (id : nat)
| WPut (id : nat)
| WNew (size : Z) (dst : source) (id : nat)           (* user code calls bufio.NewWriterSize itself *)
| WWrite (id : nat) (bs : str)                        (* bytes accepted by a write call *)
| WEmit (id : nat) (dst : source) (bs : str) (e : option Z)  (* the underlying writer received bs and returned e *)
| WFlushed (id : nat)                                 (* Flush returned nil *)
| WErr (id : nat) (e : Z)                             (* a write/flush call reported e *)
| WPoolDrop.

Definition set_wobj (s : wstate) (id : nat) (o : wobj) : nat -> wobj := upd (wobjs s) id o.

(** bufio.NewWriterSize returns its argument unchanged if that already is a bufio.Writer
    with a large enough buffer. *)
Definition wreuses (s : wstate) (size : Z) (dst : source) : option nat :=
  match dst with
  | Raw _ => None
  | Obj i => if size <=? wsize (wobjs s i) then Some i else None
  end.

Inductive wstep : wstate -> wlabel -> wstate -> Prop :=
| WSGetPool : forall s p1 id p2 size dst, wpool s = p1 ++ id :: p2 ->  (* buffer.go:60-64 / 70-74 *)
    wstep s (WGet size dst id)
      (WS (set_wobj s id (WO (wsize (wobjs s id)) (Some dst) [] None)) (p1 ++ p2) (wnext s) (id :: wheld s))
| WSGetNew : forall s size dst, wreuses s size dst = None ->           (* buffer.go:65 / 75 *)
    wstep s (WGet size dst (wnext s))
      (WS (set_wobj s (wnext s) (WO (norm_wsize size) (Some dst) [] None)) (wpool s) (S (wnext s)) (wnext s :: wheld s))
| WSGetSame : forall s size dst i, wreuses s size dst = Some i ->      (* buffer.go:65 / 75, same object *)
    wstep s (WGet size dst i) (WS (wobjs s) (wpool s) (wnext s) (i :: wheld s))
| WSNew : forall s size dst, wreuses s size dst = None ->
    wstep s (WNew size dst (wnext s))
      (WS (set_wobj s (wnext s) (WO (norm_wsize size) (Some dst) [] None)) (wpool s) (S (wnext s)) (wnext s :: wheld s))
| WSPut : forall s h1 id h2, wheld s = h1 ++ id :: h2 ->               (* buffer.go:79-82 *)
    wstep s (WPut id)
      (WS (set_wobj s id (WO (wsize (wobjs s id)) None [] None)) (id :: wpool s) (wnext s) (h1 ++ h2))
| WSWrite : forall s id bs, In id (wheld s) -> werr (wobjs s id) = None ->
    wstep s (WWrite id bs)
      (WS (set_wobj s id (WO (wsize (wobjs s id)) (wdst (wobjs s id)) (wbuf (wobjs s id) ++ bs) None)) (wpool s) (wnext s) (wheld s))
| WSEmit : forall s id dst bs rest e, In id (wheld s) -> werr (wobjs s id) = None ->
    wdst (wobjs s id) = Some dst -> wbuf (wobjs s id) = bs ++ rest ->
    wstep s (WEmit id dst bs e)
      (WS (set_wobj s id (WO (wsize (wobjs s id)) (Some dst) rest e)) (wpool s) (wnext s) (wheld s))
| WSFlushed : forall s id, In id (wheld s) -> werr (wobjs s id) = None -> wbuf (wobjs s id) = [] ->
    wstep s (WFlushed id) s
| WSErr : forall s id e, In id (wheld s) -> werr (wobjs s id) = Some e -> wstep s (WErr id e) s
| WSDrop : forall s p1 id p2, wpool s = p1 ++ id :: p2 ->
    wstep s WPoolDrop (WS (wobjs s) (p1 ++ p2) (wnext s) (wheld s)).

Definition winit (s : wstate) : Prop := wpool s = [] /\ wnext s = 0%nat /\ wheld s = [].
