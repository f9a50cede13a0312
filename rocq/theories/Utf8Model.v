(** * Go's unicode/utf8 semantics.

    /repo's xstring package is written against the Go standard library
    (utf8.RuneCountInString, `for range` over strings, []rune(s), string(runes),
    strings.Builder.WriteRune, utf8.DecodeLastRune, utf8.EncodeRune).  This file
    models those library functions; it cites the call sites in /repo.
    Bit masks and shifts are written as the equivalent arithmetic on the ranges
    where they apply. *)
From Coq Require Import ZArith List Bool.
From Verif Require Import GoBase.
Import ListNotations.
Open Scope Z_scope.

(** utf8.RuneError, used at xstring/xstring.go:289. *)
Definition rune_error : Z := 65533.

(** Unicode scalar values: what a Go rune must be to be encodable as itself. *)
Definition is_scalar (r : Z) : bool :=
  ((0 <=? r) && (r <? 55296)) || ((57344 <=? r) && (r <=? 1114111)).

Definition between (lo hi b : Z) : bool := (lo <=? b) && (b <=? hi).

(** A continuation byte 10xxxxxx; [utf8.RuneStart b] is its negation. *)
Definition is_cont (b : Z) : bool := between 128 191 b.

(** utf8.EncodeRune / strings.Builder.WriteRune (xstring.go:142,158,257,293,700):
    invalid runes are encoded as U+FFFD. *)
Definition encode (r : Z) : str :=
  if between 0 127 r then [r]
  else if between 128 2047 r then [192 + r / 64; 128 + r mod 64]
  else if negb (is_scalar r) then [239; 191; 189]
  else if r <=? 65535 then [224 + r / 4096; 128 + (r / 64) mod 64; 128 + r mod 64]
  else [240 + r / 262144; 128 + (r / 4096) mod 64; 128 + (r / 64) mod 64; 128 + r mod 64].

(** Accepted range of the second byte for a given first byte (utf8.acceptRanges). *)
Definition second_ok (b0 b1 : Z) : bool :=
  if b0 =? 224 then between 160 191 b1
  else if b0 =? 237 then between 128 159 b1
  else if b0 =? 240 then between 144 191 b1
  else if b0 =? 244 then between 128 143 b1
  else is_cont b1.

(** utf8.DecodeRuneInString: rune and width; (RuneError,0) on the empty string and
    (RuneError,1) on anything ill-formed. *)
Definition decode (s : str) : Z * nat :=
  match s with
  | [] => (rune_error, 0%nat)
  | b0 :: t =>
      if between 0 127 b0 then (b0, 1%nat)
      else if between 194 223 b0 then
        match t with
        | b1 :: _ => if second_ok b0 b1 then ((b0 - 192) * 64 + (b1 - 128), 2%nat)
                     else (rune_error, 1%nat)
        | _ => (rune_error, 1%nat)
        end
      else if between 224 239 b0 then
        match t with
        | b1 :: b2 :: _ =>
            if second_ok b0 b1 && is_cont b2
            then ((b0 - 224) * 4096 + (b1 - 128) * 64 + (b2 - 128), 3%nat)
            else (rune_error, 1%nat)
        | _ => (rune_error, 1%nat)
        end
      else if between 240 244 b0 then
        match t with
        | b1 :: b2 :: b3 :: _ =>
            if second_ok b0 b1 && is_cont b2 && is_cont b3
            then ((b0 - 240) * 262144 + (b1 - 128) * 4096 + (b2 - 128) * 64 + (b3 - 128), 4%nat)
            else (rune_error, 1%nat)
        | _ => (rune_error, 1%nat)
        end
      else (rune_error, 1%nat)
  end.

(** The runes visited by `for _, v := range s`, equal to []rune(s)
    (xstring.go:156,252,307,340,512,523,553,638,698).  [n] bounds the number of
    iterations; the length of the string always suffices. *)
Fixpoint runes_n (n : nat) (s : str) : list Z :=
  match n, s with
  | O, _ => []
  | _, [] => []
  | S n', _ => let '(r, w) := decode s in r :: runes_n n' (skipn w s)
  end.
Definition runes (s : str) : list Z := runes_n (length s) s.

(** string(runes) and a Builder filled with WriteRune. *)
Definition encs (rs : list Z) : str := concat (map encode rs).

(** utf8.RuneCountInString (xstring.go:667). *)
Definition rune_count (s : str) : Z := zlen (runes s).

(** utf8.DecodeLastRune (xstring.go:287): scan back over at most UTFMax-1 bytes for
    a byte that is not a continuation byte, decode there, and accept only if the
    decoded rune ends exactly at the end of the input. *)
Definition byte_at (p : str) (i : Z) : Z := nth (Z.to_nat i) p 0.

Fixpoint back_scan (p : str) (lim : Z) (fuel : nat) (start : Z) : Z :=
  match fuel with
  | O => start
  | S f => if start <? lim then start
           else if negb (is_cont (byte_at p start)) then start
           else back_scan p lim f (start - 1)
  end.

Definition decode_last (p : str) : Z * Z :=
  let e := zlen p in
  if e =? 0 then (rune_error, 0)
  else
    let r := byte_at p (e - 1) in
    if between 0 127 r then (r, 1)
    else
      let lim := Z.max (e - 4) 0 in
      let start := back_scan p lim 4 (e - 2) in
      let start := if start <? 0 then 0 else start in
      let '(r, size) := decode (skipn (Z.to_nat start) p) in
      if start + Z.of_nat size =? e then (r, Z.of_nat size) else (rune_error, 1).

(** unicode.IsSpace (xstring.go:419,699): Latin-1 spaces and the Unicode
    White_Space property. *)
Definition is_space (r : Z) : bool :=
  between 9 13 r || (r =? 32) || (r =? 133) || (r =? 160) || (r =? 5760)
  || between 8192 8202 r || (r =? 8232) || (r =? 8233) || (r =? 8239)
  || (r =? 8287) || (r =? 12288).
