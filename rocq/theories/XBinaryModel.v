(** * Model of xbinary/xbinary.go *)
From Coq Require Import ZArith List Bool Lia.
From Verif Require Import GoBase.
Import ListNotations.
Open Scope Z_scope.

(** Errors the package can return: one of the reader/writer, its own ErrInvalidLength
    (xbinary.go:26-29), or io.ErrUnexpectedEOF produced by io.ReadFull. *)
Inductive error (E : Type) := EIO (e : E) | EInvalidLength | EUnexpectedEOF.
Arguments EIO {E} e.
Arguments EInvalidLength {E}.
Arguments EUnexpectedEOF {E}.

(** ** Writers: xbinary.go:32-41, 61-72, 104-116, 121-128 *)
Section Writer.
  Variables W E : Type.
  (** w.Write(p): count, error, new writer state. *)
  Variable wr : W -> str -> Z * option E * W.

  Definition do_write (w : W) (p : str) : option E * W := let '(_, e, w') := wr w p in (e, w').

  (** xbinary.go:32-41; i is a uint16, byte(x) keeps the low 8 bits. *)
  Definition WriteUint16 (w : W) (i : Z) : option E * W :=
    do_write w [Z.land (Z.shiftr i 8) 255; Z.land i 255].
  (** xbinary.go:61-72 *)
  Definition WriteBool (w : W) (b : bool) : option E * W := do_write w [if b then 1 else 0].
  (** xbinary.go:104-116 *)
  Definition WriteUint32 (w : W) (i : Z) : option E * W :=
    do_write w [Z.land (Z.shiftr i 24) 255; Z.land (Z.shiftr i 16) 255; Z.land (Z.shiftr i 8) 255; Z.land i 255].
  (** xbinary.go:121-128; uint16(len(s)) keeps the low 16 bits. *)
  Definition WriteBytes (w : W) (s : str) : option E * W :=
    match WriteUint16 w (zlen s mod 2^16) with
    | (None, w') => do_write w' s
    | r => r
    end.
End Writer.

(** ** Readers: xbinary.go:44-56, 75-84, 89-101, 131-148

    [stale] is what the buffer obtained from the byte pool held before; io.Reader may
    overwrite only the first n bytes it reports (use of the rest as scratch space is not
    modelled). *)
Section Reader.
  Variables S E : Type.
  (** r.Read(p) with len(p) = n: the bytes stored, the error, the new reader state. *)
  Variable rd : S -> Z -> str * option E * S.
  (** err == io.EOF *)
  Variable is_eof : E -> bool.

  Definition fill (data bs : str) : str := bs ++ skipn (length bs) data.
  Definition nthb (l : str) (i : nat) : Z := nth i l 0.

  (** xbinary.go:44-56; BigEndian.Uint16 = b[1] | b[0]<<8 *)
  Definition ReadUint16 (stale : str) (s : S) : Z * option (error E) * S :=
    let '(bs, err, s') := rd s 2 in
    let data := fill stale bs in
    match err with
    | Some e => (0, Some (EIO e), s')
    | None => if zlen bs <? 2 then (0, Some EInvalidLength, s')
              else (Z.lor (nthb data 1) (Z.shiftl (nthb data 0) 8), None, s')
    end.
  (** xbinary.go:75-84 *)
  Definition ReadBool (stale : str) (s : S) : bool * option (error E) * S :=
    let '(bs, err, s') := rd s 1 in
    let data := fill stale bs in
    match err with
    | Some e => (false, Some (EIO e), s')
    | None => (nthb data 0 =? 1, None, s')
    end.
  (** xbinary.go:89-101 *)
  Definition ReadUint32 (stale : str) (s : S) : Z * option (error E) * S :=
    let '(bs, err, s') := rd s 4 in
    let data := fill stale bs in
    match err with
    | Some e => (0, Some (EIO e), s')
    | None => if zlen bs <? 4 then (0, Some EInvalidLength, s')
              else (Z.lor (Z.lor (Z.lor (nthb data 3) (Z.shiftl (nthb data 2) 8)) (Z.shiftl (nthb data 1) 16))
                     (Z.shiftl (nthb data 0) 24), None, s')
    end.

  (** io.ReadFull(r, buf) as a big-step relation (it need not return: a reader may
      deliver 0 bytes forever).  [got] are the bytes read so far, [need] = len(buf).
      io.ReadAtLeast: loop while n < min and err == nil; then n >= min clears the error
      and EOF after at least one byte becomes ErrUnexpectedEOF. *)
  Inductive ReadFull (need : Z) : str -> S -> str * option (error E) * S -> Prop :=
  | RF_done : forall got s, need <= zlen got -> ReadFull need got s (got, None, s)
  | RF_more : forall got s bs s' r, zlen got < need -> rd s (need - zlen got) = (bs, None, s') ->
      ReadFull need (got ++ bs) s' r -> ReadFull need got s r
  | RF_last : forall got s bs e s', zlen got < need -> rd s (need - zlen got) = (bs, Some e, s') ->
      need <= zlen (got ++ bs) -> ReadFull need got s (got ++ bs, None, s')
  | RF_fail : forall got s bs e s', zlen got < need -> rd s (need - zlen got) = (bs, Some e, s') ->
      zlen (got ++ bs) < need ->
      ReadFull need got s (got ++ bs,
        Some (if (0 <? zlen (got ++ bs)) && is_eof e then EUnexpectedEOF else EIO e), s').

  (** xbinary.go:131-148; the nil slice and the empty slice are both []. *)
  Inductive ReadBytes (stale : str) (s : S) : str * option (error E) * S -> Prop :=
  | RB_header : forall v e s', ReadUint16 stale s = (v, Some e, s') -> ReadBytes stale s ([], Some e, s')
  | RB_empty : forall s', ReadUint16 stale s = (0, None, s') -> ReadBytes stale s ([], None, s')
  | RB_ok : forall v s' bs s'', ReadUint16 stale s = (v, None, s') -> v <> 0 ->
      ReadFull v [] s' (bs, None, s'') -> ReadBytes stale s (bs, None, s'')
  | RB_err : forall v s' bs e s'', ReadUint16 stale s = (v, None, s') -> v <> 0 ->
      ReadFull v [] s' (bs, Some e, s'') -> ReadBytes stale s ([], Some e, s'').
End Reader.

(** ** bytes.Buffer as writer and reader *)
Inductive bufErr := EOF.
Definition buf_write (w p : str) : Z * option bufErr * str := (zlen p, None, w ++ p).
Definition buf_read (s : str) (n : Z) : str * option bufErr * str :=
  match s with
  | [] => if n =? 0 then ([], None, []) else ([], Some EOF, [])
  | _ => (firstn (Z.to_nat n) s, None, skipn (Z.to_nat n) s)
  end.
Definition buf_eof (e : bufErr) : bool := true.
