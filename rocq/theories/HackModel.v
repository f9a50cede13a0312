(** * Model of xstring.Reverse in memory, with internal/hack

    XStringModel has Reverse on the contents of strings.  In the code the argument is read through
    a []byte that shares the string's memory (hack.StringToBytes), and the result is a string that
    shares the memory of the []byte it was built in (hack.BytesToString).  Here memory is explicit,
    any number of goroutines call Reverse, and other code runs as well.  A step is one store of a
    byte, one allocation, one decoding of a rune. *)
From Coq Require Import ZArith List Bool Arith.
From Verif Require Import GoBase Trans Utf8Model XStringModel.
Import ListNotations.
Open Scope nat_scope.

(** A string value: data pointer (block and offset) and length; a []byte value has a capacity too. *)
Record gostr := GS { sblk : nat; soff : nat; sln : nat }.
Record gosl := GB { bblk : nat; boff : nat; blen : nat; bcapa : nat }.

(** hack/xstring.go:29-36 *)
Definition StringToBytes (s : gostr) : gosl := GB (sblk s) (soff s) (sln s) (sln s).
(** hack/xstring.go:43-45: a string header is the first two words of a slice header. *)
Definition BytesToString (b : gosl) : gostr := GS (bblk b) (boff b) (blen b).

(** Memory: the bytes of each block, and who may store into it.  The latter is not in the code: no
    step below looks at it except those of other code, which stores only into memory it allocated
    as []byte and has not turned into a string. *)
Inductive own := Nobody            (* not allocated *)
| Frozen                           (* a string has it *)
| Priv (t : nat)                   (* allocated by the call of Reverse in goroutine t *)
| Other.                           (* a []byte of other code *)

Inductive hpc :=
| HIdle
| HStart (s : gostr)                                  (* xstring.go:278 *)
| HLoop (src dst : gosl) (si di : nat)                (* 286 *)
| HPut (src dst : gosl) (pos : nat) (bs : str) (si di : nat)   (* in EncodeRune, 293: bs left to store at pos *)
| HBack (r : gostr) (ok : bool)                       (* 279, 290, 298 *)
| HPanic.

Record hst := HS { cells : nat -> str; owner : nat -> own; hpcs : nat -> hpc }.

Definition window (h : nat -> str) (b off len : nat) : str := firstn len (skipn off (h b)).
(** What a string is *)
Definition text (s : hst) (x : gostr) : str := window (cells s) (sblk x) (soff x) (sln x).
(** A string a program can have: the empty one, or one in the memory of a string *)
Definition valid (s : hst) (x : gostr) : Prop :=
  sln x = 0 \/ (owner s (sblk x) = Frozen /\ soff x + sln x <= length (cells s (sblk x))).

Inductive hlabel :=
| HCall (t : nat) (a : gostr) | HRet (t : nat) (r : gostr) (ok : bool)
| HTau (t : nat) | HEnv.

Definition store (h : nat -> str) (b i : nat) (v : Z) : nat -> str := upd h b (set_nth (h b) i v).

(** xstring.go:277-299.  Indexes are natural numbers: they stay between 0 and len(s). *)
Inductive hstep : hst -> hlabel -> hst -> Prop :=
| HSCall : forall h o g t a, g t = HIdle -> valid (HS h o g) a ->
    hstep (HS h o g) (HCall t a) (HS h o (upd g t (HStart a)))
| HSEmpty : forall h o g t a, g t = HStart a -> sln a = 0 ->                        (* 278-280 *)
    hstep (HS h o g) (HTau t) (HS h o (upd g t (HBack a true)))
| HSMake : forall h o g t a b, g t = HStart a -> sln a <> 0 -> o b = Nobody ->      (* 282-285 *)
    hstep (HS h o g) (HTau t)
      (HS (upd h b (repeat 0%Z (sln a))) (upd o b (Priv t))
          (upd g t (HLoop (StringToBytes a) (GB b 0 (sln a) (sln a)) (sln a) 0)))
| HSDone : forall h o g t src dst di, g t = HLoop src dst 0 di ->                   (* 298 *)
    hstep (HS h o g) (HTau t) (HS h o (upd g t (HBack (BytesToString dst) true)))
| HSBad : forall h o g t src dst si di n, g t = HLoop src dst si di -> 0 < si <= bcapa src ->   (* 287-291 *)
    decode_last (window h (bblk src) (boff src) si) = (rune_error, n) ->
    hstep (HS h o g) (HTau t) (HS h o (upd g t (HBack (BytesToString dst) false)))
| HSRune : forall h o g t src dst si di r n, g t = HLoop src dst si di -> 0 < si <= bcapa src ->
    decode_last (window h (bblk src) (boff src) si) = (r, n) -> r <> rune_error ->
    hstep (HS h o g) (HTau t)
      (HS h o (upd g t (HPut src dst di (encode r) (si - Z.to_nat n) (di + Z.to_nat n))))
| HSSlice : forall h o g t src dst si di, g t = HLoop src dst si di -> bcapa src < si ->   (* src[:srcIndex] *)
    hstep (HS h o g) (HTau t) (HS h o (upd g t HPanic))
| HSByte : forall h o g t src dst pos b bs si di, g t = HPut src dst pos (b :: bs) si di -> pos < blen dst ->
    hstep (HS h o g) (HTau t) (HS (store h (bblk dst) (boff dst + pos) b) o (upd g t (HPut src dst (S pos) bs si di)))
| HSIndex : forall h o g t src dst pos b bs si di, g t = HPut src dst pos (b :: bs) si di -> blen dst <= pos ->
    hstep (HS h o g) (HTau t) (HS h o (upd g t HPanic))
| HSNext : forall h o g t src dst pos si di, g t = HPut src dst pos [] si di ->     (* 294-295 *)
    hstep (HS h o g) (HTau t) (HS h o (upd g t (HLoop src dst si di)))
(* Return: the local []byte is dead; its memory is the string's. *)
| HSRet : forall h o g t r ok, g t = HBack r ok ->
    hstep (HS h o g) (HRet t r ok)
      (HS h (fun b => match o b with Priv u => if Nat.eqb u t then Frozen else Priv u | x => x end) (upd g t HIdle))
(* Other code allocates, stores into its own []byte, makes strings of them *)
| HSAlloc : forall h o g b bs, o b = Nobody -> hstep (HS h o g) HEnv (HS (upd h b bs) (upd o b Other) g)
| HSStore : forall h o g b i v, o b = Other -> hstep (HS h o g) HEnv (HS (store h b i v) o g)
| HSFreeze : forall h o g b, o b = Other -> hstep (HS h o g) HEnv (HS h (upd o b Frozen) g).

Definition hinit (s : hst) : Prop := (forall b, owner s b = Nobody \/ owner s b = Frozen) /\ forall t, hpcs s t = HIdle.
Definition hquiet (t : nat) (c : list hlabel) : Prop :=
  forall l, In l c -> (forall a, l <> HCall t a) /\ (forall r ok, l <> HRet t r ok).
