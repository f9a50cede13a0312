(** * Model of xstring/stringjoiner.go and xerror/err.go *)
From Coq Require Import ZArith List Bool Lia.
From Verif Require Import GoBase Utf8Model.
Import ListNotations.
Open Scope Z_scope.

(** stringjoiner.go:29-33 *)
Record joinerOptions := JO { o_prefix : str; o_step : str; o_suffix : str }.

(** stringjoiner.go:35: a JoinerOption is a function on the options. The four exported
    constructors, stringjoiner.go:39-66. *)
Definition JoinerOption := joinerOptions -> joinerOptions.
Definition WithJoinerStep (s : str) : JoinerOption := fun o => JO (o_prefix o) s (o_suffix o).
Definition WithJoinerPrefix (s : str) : JoinerOption := fun o => JO s (o_step o) (o_suffix o).
Definition WithJoinerSuffix (s : str) : JoinerOption := fun o => JO (o_prefix o) (o_step o) s.
Definition WithJoiner (p st su : str) : JoinerOption := fun _ => JO p st su.

(** strings.Builder: its bytes and the capacity of its buffer. *)
Record builder := B { buf : str; bcap : Z }.

(** stringjoiner.go:23-27; [jb = None] is the nil *strings.Builder. *)
Record Joiner := J { jb : option builder; opts : joinerOptions; jn : Z }.

(** stringjoiner.go:69-74 and loadOpts, 76-84. *)
Definition NewJoiner (os : list JoinerOption) : Joiner :=
  let op := fold_left (fun o f => f o) os (JO [] [] []) in
  J None op (zlen (o_prefix op) + zlen (o_suffix op)).

Section Runtime.
  (** Capacity the Go runtime chooses when it reallocates a buffer of length [len] and
      capacity [cap] to hold [need] bytes: any function (see the theorems' premise). *)
  Variable newcap : Z -> Z -> Z -> Z.

  (** append(b.buf, p...) inside strings.Builder *)
  Definition b_append (b : builder) (p : str) : builder :=
    let l := zlen (buf b) + zlen p in
    B (buf b ++ p) (if l <=? bcap b then bcap b else newcap (zlen (buf b)) (bcap b) l).
  (** strings.Builder.Grow; panics for negative n *)
  Definition b_grow (b : builder) (n : Z) : res builder :=
    if n <? 0 then Panic
    else Ok (B (buf b) (if bcap b - zlen (buf b) <? n then newcap (zlen (buf b)) (bcap b) (2 * bcap b + n) else bcap b)).
  (** &strings.Builder{} and strings.Builder.Reset *)
  Definition b_empty : builder := B [] 0.

  (** stringjoiner.go:132-138 *)
  Definition tryWriteStep (j : Joiner) : builder :=
    match jb j with None => b_empty | Some b => b_append b (o_step (opts j)) end.

  (** stringjoiner.go:88-120: the four write methods differ in the bytes they append and
      in the count they report (WriteByte reports none; the model reports 1). *)
  Definition write (j : Joiner) (p : str) : Joiner * Z :=
    (J (Some (b_append (tryWriteStep j) p)) (opts j) (jn j), zlen p).
  Definition WriteRune (j : Joiner) (r : Z) : Joiner * Z := write j (encode r).
  Definition WriteString (j : Joiner) (s : str) : Joiner * Z := write j s.
  Definition WriteByte (j : Joiner) (b : byte) : Joiner * Z := write j [b].
  Definition Write (j : Joiner) (p : str) : Joiner * Z := write j p.

  (** stringjoiner.go:123-130 *)
  Definition String (j : Joiner) : str :=
    o_prefix (opts j) ++ (match jb j with None => [] | Some b => buf b end) ++ o_suffix (opts j).

  (** stringjoiner.go:143-149. The builder is created before Grow can panic. *)
  Definition Grow (j : Joiner) (n : Z) : Joiner * res unit :=
    let b := match jb j with None => b_empty | Some b => b end in
    match b_grow b n with
    | Ok b' => (J (Some b') (opts j) (jn j), Ok tt)
    | Panic => (J (Some b) (opts j) (jn j), Panic)
    end.

  (** stringjoiner.go:154-160 *)
  Definition Cap (j : Joiner) : Z := match jb j with None => jn j | Some b => bcap b + jn j end.
  (** stringjoiner.go:163-167 *)
  Definition Reset (j : Joiner) : Joiner :=
    J (match jb j with None => None | Some _ => Some b_empty end) (opts j) (jn j).
  (** stringjoiner.go:170-176 *)
  Definition Len (j : Joiner) : Z := match jb j with None => jn j | Some b => zlen (buf b) + jn j end.

  (** The API calls that change a Joiner. *)
  Inductive jop := OWriteRune (r : Z) | OWriteString (s : str) | OWriteByte (b : byte) | OWrite (p : str)
    | OGrow (n : Z) | OReset.
  Definition do_op (j : Joiner) (o : jop) : Joiner :=
    match o with
    | OWriteRune r => fst (WriteRune j r)
    | OWriteString s => fst (WriteString j s)
    | OWriteByte b => fst (WriteByte j b)
    | OWrite p => fst (Write j p)
    | OGrow n => fst (Grow j n)
    | OReset => Reset j
    end.
  Definition run (j : Joiner) (os : list jop) : Joiner := fold_left do_op os j.
End Runtime.

(** ** xerror/err.go *)
Section Errors.
  (** A non-nil error value and its Error() text. *)
  Variable error : Type.
  Variable message : error -> str.
  Variable newcap : Z -> Z -> Z -> Z.

  (** err.go:25-29; the zero value has no errors. *)
  Record BatchError := BE { errs : list error }.
  Definition zeroBatch : BatchError := BE [].
  (** err.go:33-37; None is a nil error. *)
  Definition Add (be : BatchError) (e : option error) : BatchError :=
    match e with None => be | Some e => BE (errs be ++ [e]) end.
  (** The error Err() returns: nil, the single error itself, or the errorArray. *)
  Inductive errv := ENil | ESingle (e : error) | EArray (es : list error).
  (** err.go:40-49 *)
  Definition Err (be : BatchError) : errv :=
    match errs be with [] => ENil | [e] => ESingle e | es => EArray es end.
  (** err.go:52-54 *)
  Definition NotNil (be : BatchError) : bool := 0 <? zlen (errs be).
  (** err.go:57-64 *)
  Definition errorArray_Error (ea : list error) : str :=
    String (fold_left (fun j e => fst (WriteString newcap j (message e))) ea (NewJoiner [WithJoinerStep [10]])).
  (** The Error() text of what Err() returns. *)
  Definition errv_message (v : errv) : option str :=
    match v with ENil => None | ESingle e => Some (message e) | EArray es => Some (errorArray_Error es) end.
End Errors.
Arguments zeroBatch {error}.
Arguments Add {error}.
Arguments Err {error}.
Arguments NotNil {error}.
Arguments ENil {error}.
Arguments ESingle {error}.
Arguments EArray {error}.
Arguments BE {error}.
Arguments errs {error}.
