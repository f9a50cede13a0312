(** * Model of xstring/xstring.go

    Strings are byte lists.  [res] makes every possible panic (slice index, slice
    bounds, negative Builder.Grow) visible.  Unicode classification and case tables
    are parameters; [ovf] is the platform's float-to-int overflow behaviour (used
    only through xmath). *)
From Coq Require Import ZArith List Bool.
From Verif Require Import GoBase Utf8Model XMathModel.
Import ListNotations.
Open Scope Z_scope.

(** xstring.go:666-668 *)
Definition Len (s : str) : Z := rune_count s.

(** strings.Builder.Grow (xstring.go:140,154,192,250,696): panics on a negative count. *)
Definition grow {A} (n : Z) (k : A) : res A := if n <? 0 then Panic else Ok k.

(** The Builder loop `for i := 0; i < repeat; i++ { sb.WriteRune(ch) }`,
    xstring.go:141-143. *)
Fixpoint repeat_rune (n : nat) (ch : Z) : str :=
  match n with O => [] | S n' => encode ch ++ repeat_rune n' ch end.

(** xstring.go:134-146 *)
Definition RepeatChar (ch : Z) (repeat : Z) : str :=
  if repeat <=? 0 then [] else repeat_rune (Z.to_nat repeat) ch.

(** xstring.go:125-131 *)
Definition padRawLeftChar (s : str) (ch padSize : Z) : str := RepeatChar ch padSize ++ s.
Definition padRawRightChar (s : str) (ch padSize : Z) : str := s ++ RepeatChar ch padSize.

(** xstring.go:108-123 *)
Definition padCharLeftOrRight (s : str) (size ch : Z) (isLeft : bool) : str :=
  if size <=? 0 then s
  else let pads := size - Len s in
       if pads <=? 0 then s
       else if isLeft then padRawLeftChar s ch pads else padRawRightChar s ch pads.

(** xstring.go:48-71 *)
Definition PadLeftChar (s : str) (size ch : Z) : str := padCharLeftOrRight s size ch true.
Definition PadLeftSpace (s : str) (size : Z) : str := PadLeftChar s size 32.
Definition PadRightChar (s : str) (size ch : Z) : str := padCharLeftOrRight s size ch false.
Definition PadRightSpace (s : str) (size : Z) : str := PadRightChar s size 32.

(** xstring.go:76-99.  Go's `/` truncates; pads is positive there. *)
Definition PadCenterChar (s : str) (size ch : Z) : str :=
  if size <=? 0 then s
  else
    let length := Len s in
    let pads := size - length in
    if pads <=? 0 then s
    else
      let leftPads := Z.quot pads 2 in
      let s := if 0 <? leftPads then padRawLeftChar s ch leftPads else s in
      let rightPads := size - leftPads - length in
      if 0 <? rightPads then padRawRightChar s ch rightPads else s.

(** xstring.go:104-106 *)
Definition PadCenterSpace (s : str) (size : Z) : str := PadCenterChar s size 32.

(** xstring.go:149-163 *)
Fixpoint remove_loop (rs : list Z) (rmVal : Z) : str :=
  match rs with
  | [] => []
  | v :: rs' => (if v =? rmVal then [] else encode v) ++ remove_loop rs' rmVal
  end.
Definition RemoveChar (s : str) (rmVal : Z) : str :=
  match s with [] => s | _ => remove_loop (runes s) rmVal end.

(** strings.HasPrefix and strings.Index (library; xstring.go:171,326,491,599). *)
Fixpoint has_prefix (sub s : str) : bool :=
  match sub, s with
  | [], _ => true
  | _, [] => false
  | a :: sub', b :: s' => (a =? b) && has_prefix sub' s'
  end.
Fixpoint index_at (i : Z) (s sub : str) : Z :=
  if has_prefix sub s then i
  else match s with [] => -1 | _ :: t => index_at (i + 1) t sub end.
Definition str_index (s sub : str) : Z := index_at 0 s sub.
Definition str_contains (s sub : str) : bool := 0 <=? str_index s sub.

(** strings.ReplaceAll(s, old, "") for a non-empty old (library loop: find the next
    occurrence with Index, copy what precedes it, continue after it). *)
Fixpoint replace_loop (n : nat) (s old : str) : str :=
  match n with
  | O => s
  | S n' => let j := str_index s old in
            if j <? 0 then s
            else firstn (Z.to_nat j) s ++ replace_loop n' (skipn (Z.to_nat j + length old) s) old
  end.

(** xstring.go:166-172 *)
Definition RemoveString (s rmStr : str) : str :=
  match s, rmStr with
  | [], _ => s
  | _, [] => s
  | _, _ => replace_loop (length s) s rmStr
  end.

(** The copy loop of sub, xstring.go:251-260. *)
Fixpoint sub_loop (rs : list Z) (runeIndex start end_ : Z) : str :=
  match rs with
  | [] => []
  | v :: rs' =>
      if end_ <=? runeIndex then []
      else (if start <=? runeIndex then encode v else []) ++ sub_loop rs' (runeIndex + 1) start end_
  end.

(** xstring.go:217-263 *)
Definition sub (s : str) (start end_ : Z) : res str :=
  match s with
  | [] => Ok []
  | _ =>
    let unicodeLen := Len s in
    let end_ := if end_ <? 0 then end_ + unicodeLen else end_ in
    let end_ := if unicodeLen <? end_ then unicodeLen else end_ in
    let start := if start <? 0 then start + unicodeLen else start in
    if end_ <? start then Ok []
    else
      let start := if start <? 0 then 0 else start in
      let end_ := if end_ <? 0 then 0 else end_ in
      if (start =? 0) && (end_ =? unicodeLen) then Ok s
      else grow (end_ - start) (sub_loop (runes s) 0 start end_)
  end.

(** xstring.go:201-215 *)
Definition Sub (s : str) (start end_ : Z) : res str := sub s start end_.
Definition Left (s : str) (end_ : Z) : res str := sub s 0 end_.
Definition Right (s : str) (start : Z) : res str := sub s start max_int.

(** xstring.go:175-197.  Go's % is Z.rem. *)
Definition Rotate (s : str) (shift : Z) : res str :=
  if shift =? 0 then Ok s
  else
    let sLen := zlen s in
    if sLen =? 0 then Ok s
    else
      let shiftMod := Z.rem shift sLen in
      if shiftMod =? 0 then Ok s
      else
        let offset := - shiftMod in
        res_bind (Right s offset) (fun r =>
        res_bind (Left s offset) (fun l => Ok (r ++ l))).

(** Writing EncodeRune's bytes into dst at dstIndex (xstring.go:293); panics if they
    do not fit. *)
Fixpoint write_at (dst : str) (i : nat) (bs : str) : res str :=
  match i, dst with
  | O, _ => match bs, dst with
            | [], _ => Ok dst
            | _, [] => Panic
            | b :: bs', _ :: dst' => res_map (cons b) (write_at dst' O bs')
            end
  | S i', d :: dst' => res_map (cons d) (write_at dst' i' bs)
  | S _, [] => Panic
  end.

(** xstring.go:286-296.  Fuel: each iteration consumes at least one byte. *)
Fixpoint reverse_loop (fuel : nat) (src dst : str) (srcIndex dstIndex : Z) : res (str * bool) :=
  match fuel with
  | O => Ok (dst, true)
  | S f =>
      if 0 <? srcIndex then
        let '(r, n) := decode_last (firstn (Z.to_nat srcIndex) src) in
        if r =? rune_error then Ok (dst, false)
        else res_bind (write_at dst (Z.to_nat dstIndex) (encode r)) (fun dst' =>
             reverse_loop f src dst' (srcIndex - n) (dstIndex + n))
      else Ok (dst, true)
  end.

(** xstring.go:277-299.  The boolean is (err == nil); the only error is ErrDecodeChar. *)
Definition Reverse (s : str) : res (str * bool) :=
  match s with
  | [] => Ok (s, true)
  | _ => reverse_loop (length s) s (repeat 0 (length s)) (zlen s) 0
  end.

(** xstring.go:266-274 *)
Definition MustReverse (s : str) : res str :=
  res_bind (Reverse s) (fun '(result, ok) => if ok then Ok result else Panic).

(** runes[i], runes[index] = runes[index], runes[i] (xstring.go:312). *)
Definition set_nth {A} (l : list A) (i : nat) (x : A) : list A :=
  firstn i l ++ x :: skipn (S i) l.
Definition swap {A} (l : list A) (i j : Z) : res (list A) :=
  res_bind (idx l i) (fun a => res_bind (idx l j) (fun b =>
    Ok (set_nth (set_nth l (Z.to_nat i) b) (Z.to_nat j) a))).

(** xstring.go:309-314.  [draws] are the successive results of rand.Intn(i+1);
    the loop variable runs from i = number of draws down to 1. *)
Fixpoint shuffle_loop {A} (draws : list Z) (rs : list A) : res (list A) :=
  match draws with
  | [] => Ok rs
  | index :: draws' =>
      let i := zlen draws in
      if i =? index then shuffle_loop draws' rs
      else res_bind (swap rs i index) (fun rs' => shuffle_loop draws' rs')
  end.

(** xstring.go:302-317 *)
Definition Shuffle (draws : list Z) (s : str) : res str :=
  match s with
  | [] => Ok s
  | _ => res_map encs (shuffle_loop draws (runes s))
  end.

(** xstring.go:320-332 *)
Definition ContainsAnySubstrings (s : str) (subs : list str) : bool :=
  existsb (fun v => str_contains s v) subs.

(** xstring.go:384-391 *)
Definition IsEmpty (s : str) : bool := match s with [] => true | _ => false end.
Definition IsNotEmpty (s : str) : bool := negb (IsEmpty s).

(** xstring.go:394-410 *)
Definition IsAnyEmpty (ss : list str) : bool :=
  match ss with [] => true | _ => existsb IsEmpty ss end.
Definition IsNoneEmpty (ss : list str) : bool := negb (IsAnyEmpty ss).

(** xstring.go:413-430 *)
Definition IsBlank (s : str) : bool :=
  match s with [] => true | _ => forallb is_space (runes s) end.
Definition IsNotBlank (s : str) : bool := negb (IsBlank s).

(** xstring.go:433-451 *)
Definition IsAnyBlank (ss : list str) : bool :=
  match ss with [] => true | _ => existsb IsBlank ss end.
Definition IsNoneBlank (ss : list str) : bool := negb (IsAnyBlank ss).

(** xstring.go:486-492 *)
Definition Contains (s searchChar : str) : bool :=
  match s with [] => false | _ => str_contains s searchChar end.

(** xstring.go:598-600 *)
Definition Index (s substr : str) : Z := str_index s substr.

Section Unicode.
  (** unicode.IsLetter, unicode.IsDigit, unicode.ToLower, unicode.ToUpper *)
  Variables (is_letter is_digit : Z -> bool) (to_lower to_upper : Z -> Z).

  (** xstring.go:335-347 *)
  Definition IsAlpha (s : str) : bool :=
    match s with [] => false | _ => forallb is_letter (runes s) end.

  (** xstring.go:350-366 *)
  Definition isAlphanumeric (v : Z) : bool := is_digit v || is_letter v.
  Definition IsAlphanumeric (s : str) : bool :=
    match s with [] => false | _ => forallb isAlphanumeric (runes s) end.

  (** xstring.go:369-381 *)
  Definition IsNumeric (s : str) : bool :=
    match s with [] => false | _ => forallb is_digit (runes s) end.

  (** strings.ToLower (xstring.go:625-626): maps every rune; ill-formed bytes become
      U+FFFD. *)
  Definition str_to_lower (s : str) : str := encs (map to_lower (runes s)).

  (** One iteration of the comparison loop, xstring.go:645-659. *)
  Definition rune_match (ignoreCase : bool) (c1 c2 : Z) : bool :=
    if c1 =? c2 then true
    else if ignoreCase then
      let c1 := to_upper c1 in
      let c2 := to_upper c2 in
      if c1 =? c2 then true else to_lower c1 =? to_lower c2
    else false.

  (** xstring.go:640-662 *)
  Fixpoint region_loop (length : nat) (ignoreCase : bool) (a b : list Z) (thisStart start : Z) : res bool :=
    match length with
    | O => Ok true
    | S n =>
        res_bind (idx a thisStart) (fun c1 =>
        res_bind (idx b start) (fun c2 =>
          if rune_match ignoreCase c1 c2
          then region_loop n ignoreCase a b (thisStart + 1) (start + 1)
          else Ok false))
    end.

  (** xstring.go:623-663 *)
  Definition RegionMatches (s : str) (ignoreCase : bool) (thisStart : Z)
             (substr : str) (start length : Z) : res bool :=
    let s := if ignoreCase then str_to_lower s else s in
    let substr := if ignoreCase then str_to_lower substr else substr in
    if (thisStart <? 0) || (start <? 0) || (length <? 0) then Ok false
    else
      let thisRetLen := Len s - thisStart in
      let subRetLen := Len substr - start in
      if (thisRetLen <? length) || (subRetLen <? length) then Ok false
      else region_loop (Z.to_nat length) ignoreCase (runes s) (runes substr) thisStart start.

  (** xstring.go:613-619: [n] iterations starting at [i]. *)
  Fixpoint contains_loop (n : nat) (i : Z) (s searchStr : str) (length : Z) : res bool :=
    match n with
    | O => Ok false
    | S n' => res_bind (RegionMatches s true i searchStr 0 length) (fun b =>
                if b then Ok true else contains_loop n' (i + 1) s searchStr length)
    end.

  (** xstring.go:609-620 *)
  Definition ContainsIgnoreCase (s searchStr : str) : res bool :=
    let length := Len searchStr in
    let max := Len s - length in
    contains_loop (Z.to_nat (max + 1)) 0 s searchStr length.

  (** xstring.go:716-729 *)
  Definition EndsWith (s suffix : str) (ignoreCase : bool) : res bool :=
    if str_eqb s suffix then Ok true
    else
      let strLen := Len s in
      let suffixLen := Len suffix in
      if strLen <? suffixLen then Ok false
      else RegionMatches s ignoreCase (strLen - suffixLen) suffix 0 suffixLen.

  (** xstring.go:732-739 *)
  Definition EndsWithIgnoreCase (s suffix : str) : res bool := EndsWith s suffix true.
  Definition EndsWithCase (s suffix : str) : res bool := EndsWith s suffix false.

  (** xstring.go:742-754 *)
  Fixpoint ends_any_loop (sequence : str) (ss : list str) : res bool :=
    match ss with
    | [] => Ok false
    | x :: ss' => res_bind (EndsWith sequence x false) (fun b =>
                    if b then Ok true else ends_any_loop sequence ss')
    end.
  Definition EndsWithAny (sequence : str) (searchStrings : list str) : res bool :=
    if IsEmpty sequence || match searchStrings with [] => true | _ => false end then Ok false
    else ends_any_loop sequence searchStrings.

  (** xstring.go:757-763 *)
  Definition EqualsIgnoreCase (str1 str2 : str) : res bool :=
    if str_eqb str1 str2 then Ok true
    else RegionMatches str1 true 0 str2 0 (Len str1).
End Unicode.

(** xstring.go:766-776 *)
Definition EqualsAny (str1 : str) (ss : list str) : bool :=
  existsb (fun str2 => str_eqb str1 str2) ss.

(** xstring.go:671-686 *)
Definition DefaultIfBlank (s d : str) : str := if IsBlank s then d else s.
Definition DefaultIfEmpty (s d : str) : str := if IsEmpty s then d else s.

(** xstring.go:698-702 *)
Fixpoint strip_loop (rs : list Z) : str :=
  match rs with
  | [] => []
  | r :: rs' => (if is_space r then [] else encode r) ++ strip_loop rs'
  end.

(** xstring.go:689-713.  builder.Len() is a byte count. *)
Definition DeleteWhitespace (s : str) : str :=
  match s with
  | [] => []
  | _ =>
    let strLen := Len s in
    let builder := strip_loop (runes s) in
    if zlen builder =? strLen then s
    else if zlen builder =? 0 then []
    else builder
  end.

Section Difference.
  Variable ovf : float -> Z.

  (** xstring.go:510-515: shortest and longest rune counts, starting from
      2<<32-1 and 0. *)
  Fixpoint extent_loop (ss : list str) (shortest longest : Z) : Z * Z :=
    match ss with
    | [] => (shortest, longest)
    | s :: ss' => let n := zlen (runes s) in
                  extent_loop ss' (MinInt ovf n shortest) (MaxInt ovf n longest)
    end.

  (** xstring.go:526-531: does some later string differ at stringPos? *)
  Fixpoint differs_at (ss : list str) (pos c : Z) : res bool :=
    match ss with
    | [] => Ok false
    | s :: ss' => res_bind (idx (runes s) pos) (fun d =>
                    if negb (d =? c) then Ok true else differs_at ss' pos c)
    end.

  (** xstring.go:524-535: [n] remaining positions starting at [pos]; the result is
      firstDiff (-1 when the loop ends without a break). *)
  Fixpoint diff_loop (n : nat) (pos : Z) (first : list Z) (rest : list str) : res Z :=
    match n with
    | O => Ok (-1)
    | S n' => res_bind (idx first pos) (fun c =>
              res_bind (differs_at rest pos c) (fun b =>
                if b then Ok pos else diff_loop n' (pos + 1) first rest))
    end.

  (** xstring.go:502-545 *)
  Definition IndexOfDifference (ss : list str) : res Z :=
    match ss with
    | [] | [_] => Ok (-1)
    | s0 :: rest =>
        let '(shortest, longest) := extent_loop ss (2 * 2^32 - 1) 0 in
        if longest =? 0 then Ok (-1)
        else if shortest =? 0 then Ok 0
        else res_map (fun firstDiff =>
               if (firstDiff =? -1) && negb (shortest =? longest) then shortest else firstDiff)
             (diff_loop (Z.to_nat shortest) 0 (runes s0) rest)
    end.

  (** xstring.go:580-595 *)
  Definition CommonPrefix (ss : list str) : res str :=
    match ss with
    | [] => Ok []
    | s0 :: _ =>
        res_bind (IndexOfDifference ss) (fun d =>
          if d =? -1 then Ok s0
          else if d =? 0 then Ok []
          else res_map encs (slice (runes s0) 0 d))
    end.
End Difference.

(** xstring.go:557-559 *)
Fixpoint diff2_loop (a b : list Z) (i : Z) : Z :=
  match a, b with
  | x :: a', y :: b' => if x =? y then diff2_loop a' b' (i + 1) else i
  | _, _ => i
  end.

(** xstring.go:549-564 *)
Definition IndexOfDifferenceWithTwoStr (a b : str) : Z :=
  if str_eqb a b then -1
  else
    let i := diff2_loop (runes a) (runes b) 0 in
    if (zlen (runes a) <=? i) && (zlen (runes b) <=? i) then -1 else i.

(** xstring.go:570-577 *)
Definition Difference (a b : str) : res str :=
  let i := IndexOfDifferenceWithTwoStr a b in
  if i =? -1 then Ok []
  else res_map encs (slice (runes b) i (zlen (runes b))).

(** The two error values of Abbreviate, xstring.go:790,807. *)
Inductive abbrev_error := ErrMinWidth (n : Z) | ErrMinWidthOffset (n : Z).

(** xstring.go:779-818.  [fuel] bounds the recursion depth; the proofs show that depth
    2 is never exceeded.  int64 wrap-around is explicit where the arguments can be
    extreme. *)
Fixpoint abbreviate (fuel : nat) (s abbrevMarker : str) (offset maxWidth : Z)
  : res (str + abbrev_error) :=
  match fuel with
  | O => Panic
  | S fuel' =>
    if IsNotEmpty s && IsEmpty abbrevMarker && (0 <? maxWidth)
    then res_map inl (Sub s 0 maxWidth)
    else if IsAnyEmpty [s; abbrevMarker] then Ok (inl s)
    else
      let abbrevMarkerLen := Len abbrevMarker in
      let minAbbrevWidth := abbrevMarkerLen + 1 in
      if maxWidth <? minAbbrevWidth then Ok (inr (ErrMinWidth minAbbrevWidth))
      else
        let minAbbrevWidthOffset := 2 * abbrevMarkerLen + 1 in
        let strLen := Len s in
        if strLen <=? maxWidth then Ok (inl s)
        else
          let offset := if strLen <? offset then strLen else offset in
          let offset := if wrap64 (strLen - offset) <? maxWidth - abbrevMarkerLen
                        then strLen - (maxWidth - abbrevMarkerLen) else offset in
          if offset <=? abbrevMarkerLen + 1
          then res_map (fun x => inl (x ++ abbrevMarker)) (Sub s 0 (maxWidth - abbrevMarkerLen))
          else if maxWidth <? minAbbrevWidthOffset
          then Ok (inr (ErrMinWidthOffset minAbbrevWidthOffset))
          else if wrap64 (offset + maxWidth - abbrevMarkerLen) <? strLen
          then res_bind (Sub s 0 offset) (fun s' =>
               res_map (fun r => match r with
                                 | inl x => inl (abbrevMarker ++ x)
                                 | inr e => inr e
                                 end)
                 (abbreviate fuel' s' abbrevMarker 0 (maxWidth - abbrevMarkerLen)))
          else res_map (fun x => inl (abbrevMarker ++ x))
                 (Sub s 0 (strLen - (maxWidth - abbrevMarkerLen)))
  end.

Definition Abbreviate (s abbrevMarker : str) (offset maxWidth : Z) : res (str + abbrev_error) :=
  abbreviate 2 s abbrevMarker offset maxWidth.
