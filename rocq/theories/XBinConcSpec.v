(** * Specification for C85: what one call of xbinary does, whatever others do *)
From Coq Require Import ZArith List.
From Verif Require Import GoBase XBinaryModel XBinarySpec XBytesModel.
Import ListNotations.
Open Scope Z_scope.

Section Spec.
Context {E : Type} (is_eof : E -> bool).

(** A call: Write* of a value, ReadBool, ReadUint16, ReadUint32, ReadBytes *)
Inductive req := QW (v : value) | QRBool | QRU16 | QRU32 | QRBytes.
Inductive ans :=
| AW (e : option E)
| ABool (b : bool) (e : option (error E))
| ANum (v : Z) (e : option (error E))
| ABytes (p : option slice_v) (content : str) (e : option (error E)).
(** What the call does with its Writer or Reader: the Writer is given bytes and answers; the
    Reader is asked for n bytes, delivers some, and answers. *)
Inductive ev := Out (bytes : str) (e : option E) | In_ (n : nat) (bytes : str) (e : option E).

Definition num16 (bs : str) (v : Z) : Prop := v = nth 0 bs 0 * 256 + nth 1 bs 0.
Definition num32 (bs : str) (v : Z) : Prop :=
  v = ((nth 0 bs 0 * 256 + nth 1 bs 0) * 256 + nth 2 bs 0) * 256 + nth 3 bs 0.

(** io.ReadFull: after the bytes got, these events bring what is missing, with this outcome *)
Inductive full (need : nat) : str -> list ev -> str -> option (error E) -> Prop :=
| F_done : forall got, (need <= length got)%nat -> full need got [] got None
| F_more : forall got bs es r e, (length got < need)%nat -> full need (got ++ bs) es r e ->
    full need got (In_ (need - length got) bs None :: es) r e
| F_last : forall got bs e, (length got < need)%nat -> (need <= length (got ++ bs))%nat ->
    full need got [In_ (need - length got) bs (Some e)] (got ++ bs) None
| F_fail : forall got bs e, (length got < need)%nat -> (length (got ++ bs) < need)%nat ->
    full need got [In_ (need - length got) bs (Some e)] (got ++ bs)
      (Some (if (0 <? zlen (got ++ bs)) && is_eof e then EUnexpectedEOF else EIO e)%bool).

Inductive does : req -> list ev -> ans -> Prop :=
| D_write : forall v e, (forall s, v <> VBytes s) -> does (QW v) [Out (wire v) e] (AW e)
| D_bytes_fail : forall s e, does (QW (VBytes s)) [Out (be16 (zlen s mod 2^16)) (Some e)] (AW (Some e))
| D_bytes : forall s e, does (QW (VBytes s)) [Out (be16 (zlen s mod 2^16)) None; Out s e] (AW e)
| D_bool : forall bs b, (bs <> [] -> b = (nth 0 bs 0 =? 1)) -> does QRBool [In_ 1 bs None] (ABool b None)
| D_bool_fail : forall bs e, does QRBool [In_ 1 bs (Some e)] (ABool false (Some (EIO e)))
| D_u16 : forall bs v, (2 <= length bs)%nat -> num16 bs v -> does QRU16 [In_ 2 bs None] (ANum v None)
| D_u16_short : forall bs, (length bs < 2)%nat -> does QRU16 [In_ 2 bs None] (ANum 0 (Some EInvalidLength))
| D_u16_fail : forall bs e, does QRU16 [In_ 2 bs (Some e)] (ANum 0 (Some (EIO e)))
| D_u32 : forall bs v, (4 <= length bs)%nat -> num32 bs v -> does QRU32 [In_ 4 bs None] (ANum v None)
| D_u32_short : forall bs, (length bs < 4)%nat -> does QRU32 [In_ 4 bs None] (ANum 0 (Some EInvalidLength))
| D_u32_fail : forall bs e, does QRU32 [In_ 4 bs (Some e)] (ANum 0 (Some (EIO e)))
(* ReadBytes: the length as ReadUint16, then the bytes *)
| D_head : forall es v x, does QRU16 es (ANum v (Some x)) -> does QRBytes es (ABytes None [] (Some x))
| D_empty : forall es, does QRU16 es (ANum 0 None) -> does QRBytes es (ABytes None [] None)
| D_payload : forall es v es2 bs b, does QRU16 es (ANum v None) -> v <> 0 -> full (Z.to_nat v) [] es2 bs None ->
    length bs = Z.to_nat v -> slen b = zlen bs -> does QRBytes (es ++ es2) (ABytes (Some b) bs None)
| D_payload_fail : forall es v es2 bs x, does QRU16 es (ANum v None) -> v <> 0 -> full (Z.to_nat v) [] es2 bs (Some x) ->
    does QRBytes (es ++ es2) (ABytes None [] (Some x)).

(** Values of the Go types *)
Definition typed (q : req) : Prop :=
  match q with QW (VU16 i) => 0 <= i < 2^16 | QW (VU32 i) => 0 <= i < 2^32 | _ => True end.

(** A history of all goroutines *)
Inductive blabel :=
| BCall (t : nat) (q : req) | BEv (t : nat) (x : ev) | BRet (t : nat) (a : ans)
| BTau                                  (* a step inside a call *)
| BEnv (l : label).                     (* somebody else uses xbytes *)
Definition events (t : nat) (tr : list blabel) : list ev :=
  flat_map (fun l => match l with BEv u x => if Nat.eqb u t then [x] else [] | _ => [] end) tr.
Definition quiet (t : nat) (tr : list blabel) : Prop := forall l, In l tr -> (forall q, l <> BCall t q) /\ forall a, l <> BRet t a.
End Spec.
Arguments req : clear implicits. Arguments ans : clear implicits. Arguments ev : clear implicits. Arguments blabel : clear implicits.
