(** * Model of xbinary/xbinary.go on the pools of xbytes/pool.go: any number of goroutines

    XBinaryModel has the functions one call at a time, with the buffer's old contents as a
    parameter.  Here the buffers come from the pools of XBytesModel, which all calls, and any other
    users of xbytes, share.  A step is one access to the memory of a buffer, one MallocSize or Free,
    the beginning or the end of a call to the Writer or Reader.  While it runs, the Reader may
    store anything anywhere in the slice it was given (io.Reader: "may use all of p as scratch
    space"); the Writer reads the slice byte by byte. *)
From Coq Require Import ZArith List Bool.
From Verif Require Import GoBase Trans XBinaryModel XBinarySpec XBytesModel XBinConcSpec.
Import ListNotations.
Open Scope Z_scope.

Section Model.
Context {E : Type} (is_eof : E -> bool).
Notation blabel := (blabel E).

(** The bytes stored into the buffer: xbinary.go:35-36, 63-67, 107-110; WriteBytes writes its
    length first (123). *)
Definition enc (v : value) : str :=
  match v with
  | VBool b => [if b then 1 else 0]
  | VU16 i => [Z.land (Z.shiftr i 8) 255; Z.land i 255]
  | VU32 i => [Z.land (Z.shiftr i 24) 255; Z.land (Z.shiftr i 16) 255; Z.land (Z.shiftr i 8) 255; Z.land i 255]
  | VBytes s => let i := zlen s mod 2^16 in [Z.land (Z.shiftr i 8) 255; Z.land i 255]
  end.
(** Size of the buffer of a Read: xbinary.go:45, 76, 90; ReadBytes reads its length with ReadUint16 (132). *)
Definition rsize (q : req) : nat := match q with QRBool => 1 | QRU32 => 4 | _ => 2 end.

(** Where a goroutine is; lines of xbinary.go in the comments *)
Inductive bpc :=
| BIdle
(* Write* *)
| WAlloc (v : value)                       (* MallocSize: 33, 62, 105 *)
| WFill (v : value) (b : slice_v) (i : nat)   (* i bytes stored *)
| WOut (v : value) (b : slice_v) (acc : str)  (* in w.Write(data), which has read acc: 38, 69, 112 *)
| WFree (v : value) (b : slice_v) (e : option E) (* 39, 70, 113 *)
| WTail (s : str)                          (* w.Write(s): 125 *)
(* Read* *)
| RAlloc (q : req)                         (* 45, 76, 90 *)
| RRead (q : req) (b : slice_v)            (* in r.Read(data): 48, 79, 93 *)
| RDone (q : req) (b : slice_v) (n : nat) (e : option E)   (* it returned n, e: 49-55, 80-83, 94-100 *)
| RFree (q : req) (b : slice_v) (v : Z) (e : option (error E)) (* the deferred Free: 46, 77, 91 *)
(* ReadBytes after its ReadUint16 *)
| PAlloc (n : nat)                         (* 140 *)
| PRead (n : nat) (b : slice_v) (k : nat)  (* in ReadFull's r.Read(payload[k:]): 141 *)
| PFree (n : nat) (b : slice_v) (x : error E)  (* 143 *)
| PRet (n : nat) (b : slice_v)             (* 147 *)
| BEnd (a : ans E).

(** the buffer a call in progress has *)
Definition held (p : bpc) : option slice_v :=
  match p with
  | WFill _ b _ | WOut _ b _ | WFree _ b _ | RRead _ b | RDone _ b _ _ | RFree _ b _ _ | PRead _ b _ | PFree _ b _ | PRet _ b => Some b
  | _ => None
  end.
(** byte i of a buffer.  The cells of XBytesModel hold integers; a byte is that modulo 256. *)
Definition at_ (h : cell -> Z) (b : slice_v) (i : nat) : Z := h (blk b, off b + Z.of_nat i) mod 256.
Definition bytes (h : cell -> Z) (b : slice_v) (k n : nat) : str := map (fun i => at_ h b (k + i)) (seq 0 n).

(** xbinary.go:49-55, 80-83, 94-100: the answer, from what Read returned and the buffer *)
Definition decode (q : req) (h : cell -> Z) (b : slice_v) (n : nat) (e : option E) : Z * option (error E) :=
  let d := at_ h b in
  match q, e with
  | _, Some x => (0, Some (EIO x))
  | QRBool, None => (if d 0%nat =? 1 then 1 else 0, None)
  | QRU32, None => if (n <? 4)%nat then (0, Some EInvalidLength)
                   else (Z.lor (Z.lor (Z.lor (d 3%nat) (Z.shiftl (d 2%nat) 8)) (Z.shiftl (d 1%nat) 16)) (Z.shiftl (d 0%nat) 24), None)
  | _, None => if (n <? 2)%nat then (0, Some EInvalidLength) else (Z.lor (d 1%nat) (Z.shiftl (d 0%nat) 8), None)
  end.
(** after the deferred Free; ReadBytes goes on at xbinary.go:133-140 *)
Definition rnext (q : req) (v : Z) (e : option (error E)) : bpc :=
  match q, e with
  | QRBool, _ => BEnd (ABool (v =? 1) e)
  | QRBytes, Some x => BEnd (ABytes None [] (Some x))                           (* 133-135 *)
  | QRBytes, None => if v =? 0 then BEnd (ABytes None [] None)                   (* 137-139 *)
                     else PAlloc (Z.to_nat v)
  | _, _ => BEnd (ANum v e)
  end.
(** xbinary.go:141, io.ReadFull after a Read that made it k bytes in all *)
Definition pnext (n : nat) (b : slice_v) (k : nat) (e : option E) : bpc :=
  if (n <=? k)%nat then PRet n b
  else match e with
       | None => PRead n b k
       | Some x => PFree n b (if (0 <? k)%nat && is_eof x then EUnexpectedEOF else EIO x)
       end.

Record sys := Sys { mem : state; gs : nat -> bpc }.

(** Others use xbytes too; they do not touch the buffers of the calls in progress, which they
    have no way to get. *)
Definition touches (l : label) (b : slice_v) : Prop :=
  match l with LFree s | LSplit s _ | LForget s | LWrite s _ _ => s = b | _ => False end.

(** The steps of xbinary.go:32-148 and of everybody else *)
Inductive bstep : sys -> blabel -> sys -> Prop :=
| YCall : forall m g t q, g t = BIdle -> typed q ->
    bstep (Sys m g) (BCall t q) (Sys m (upd g t (match q with QW v => WAlloc v | _ => RAlloc q end)))
| YRet : forall m g t a, g t = BEnd a -> bstep (Sys m g) (BRet t a) (Sys m (upd g t BIdle))
(* Write* *)
| YWAlloc : forall m g t v b m', g t = WAlloc v -> step true m (LMalloc (zlen (enc v)) (zlen (enc v)) (Ok b)) m' ->
    bstep (Sys m g) BTau (Sys m' (upd g t (WFill v b 0)))
| YFill : forall m g t v b i m', g t = WFill v b i -> (i < length (enc v))%nat -> step true m (LWrite b (Z.of_nat i) (nth i (enc v) 0)) m' ->
    bstep (Sys m g) BTau (Sys m' (upd g t (WFill v b (S i))))
| YFilled : forall m g t v b, g t = WFill v b (length (enc v)) -> bstep (Sys m g) BTau (Sys m (upd g t (WOut v b [])))
| YWByte : forall m g t v b acc, g t = WOut v b acc -> (length acc < length (enc v))%nat ->
    bstep (Sys m g) BTau (Sys m (upd g t (WOut v b (acc ++ [at_ (heap m) b (length acc)]))))
| YWritten : forall m g t v b acc e, g t = WOut v b acc -> length acc = length (enc v) ->
    bstep (Sys m g) (BEv t (Out acc e)) (Sys m (upd g t (WFree v b e)))
| YWFree : forall m g t v b e m', g t = WFree v b e -> step true m (LFree b) m' ->
    bstep (Sys m g) BTau (Sys m' (upd g t (match v, e with VBytes s, None => WTail s | _, _ => BEnd (AW e) end)))
| YTail : forall m g t s e, g t = WTail s -> bstep (Sys m g) (BEv t (Out s e)) (Sys m (upd g t (BEnd (AW e))))
(* Read* *)
| YRAlloc : forall m g t q b m', g t = RAlloc q -> step true m (LMalloc (Z.of_nat (rsize q)) (Z.of_nat (rsize q)) (Ok b)) m' ->
    bstep (Sys m g) BTau (Sys m' (upd g t (RRead q b)))
| YScratch : forall m g t q b i v m', g t = RRead q b -> (i < rsize q)%nat -> step true m (LWrite b (Z.of_nat i) v) m' ->
    bstep (Sys m g) BTau (Sys m' (upd g t (RRead q b)))
| YReadRet : forall m g t q b n e, g t = RRead q b -> (n <= rsize q)%nat ->
    bstep (Sys m g) (BEv t (In_ (rsize q) (bytes (heap m) b 0 n) e)) (Sys m (upd g t (RDone q b n e)))
| YDecode : forall m g t q b n e, g t = RDone q b n e ->
    bstep (Sys m g) BTau (Sys m (upd g t (RFree q b (fst (decode q (heap m) b n e)) (snd (decode q (heap m) b n e)))))
| YRFree : forall m g t q b v e m', g t = RFree q b v e -> step true m (LFree b) m' ->
    bstep (Sys m g) BTau (Sys m' (upd g t (rnext q v e)))
(* ReadBytes *)
| YPAlloc : forall m g t n b m', g t = PAlloc n -> step true m (LMalloc (Z.of_nat n) (Z.of_nat n) (Ok b)) m' ->
    bstep (Sys m g) BTau (Sys m' (upd g t (PRead n b 0)))
| YPScratch : forall m g t n b k i v m', g t = PRead n b k -> (k <= i < n)%nat -> step true m (LWrite b (Z.of_nat i) v) m' ->
    bstep (Sys m g) BTau (Sys m' (upd g t (PRead n b k)))
| YPReadRet : forall m g t n b k j e, g t = PRead n b k -> (k + j <= n)%nat ->
    bstep (Sys m g) (BEv t (In_ (n - k) (bytes (heap m) b k j) e)) (Sys m (upd g t (pnext n b (k + j) e)))
| YPFree : forall m g t n b x m', g t = PFree n b x -> step true m (LFree b) m' ->
    bstep (Sys m g) BTau (Sys m' (upd g t (BEnd (ABytes None [] (Some x)))))
(* the caller gets the payload, which is its own from now on *)
| YPRet : forall m g t n b, g t = PRet n b ->
    bstep (Sys m g) (BRet t (ABytes (Some b) (bytes (heap m) b 0 n) None)) (Sys m (upd g t BIdle))
| YEnv : forall m g l m', step true m l m' -> (forall t b, held (g t) = Some b -> ~ touches l b) ->
    bstep (Sys m g) (BEnv l) (Sys m' g).

Definition binit (s : sys) : Prop := init (mem s) /\ forall t, gs s t = BIdle.
End Model.
Arguments bpc : clear implicits. Arguments sys : clear implicits.
