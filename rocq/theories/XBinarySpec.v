(** * Specification for C26-C28: typed values and their wire format, stream readers *)
From Coq Require Import ZArith List.
From Verif Require Import GoBase.
Import ListNotations.
Open Scope Z_scope.

Inductive value := VBool (b : bool) | VU16 (i : Z) | VU32 (i : Z) | VBytes (s : str).

Definition valid_value (v : value) : Prop :=
  match v with
  | VBool _ => True
  | VU16 i => 0 <= i < 2^16
  | VU32 i => 0 <= i < 2^32
  | VBytes s => zlen s < 2^16
  end.

(** The documented wire format: big endian, byte strings prefixed by a uint16 length. *)
Definition be16 (i : Z) : str := [i / 256; i mod 256].
Definition be32 (i : Z) : str := [i / 2^24; (i / 2^16) mod 256; (i / 2^8) mod 256; i mod 256].
Definition wire (v : value) : str :=
  match v with
  | VBool b => [if b then 1 else 0]
  | VU16 i => be16 i
  | VU32 i => be32 i
  | VBytes s => be16 (zlen s mod 2^16) ++ s
  end.

(** A reader over a finite stream of bytes which may deliver them in arbitrary non-empty
    chunks: [content s] is what is still to come. At the end it reports [eof]. *)
Definition stream_reader {S E} (rd : S -> Z -> str * option E * S) (content : S -> str) (eof : E) : Prop :=
  forall s n, 0 < n ->
    match rd s n with
    | (bs, err, s') =>
        content s = bs ++ content s' /\ zlen bs <= n /\
        (content s <> [] -> bs <> [] /\ err = None) /\
        (content s = [] -> err = Some eof)
    end.

(** What a reader answers to a sequence of requests, and where it is then. *)
Fixpoint ask_all {S E} (rd : S -> Z -> str * option E * S) (s : S) (reqs : list Z) : list (str * option E) * S :=
  match reqs with
  | [] => ([], s)
  | n :: reqs' =>
      let '(bs, e, s1) := rd s n in
      let '(ans, s2) := ask_all rd s1 reqs' in ((bs, e) :: ans, s2)
  end.
(** All bytes delivered; the error that came with the last answer; no earlier answer had one. *)
Definition bytes_of {E} (ans : list (str * option E)) : str := concat (map fst ans).
Definition last_error {E} (ans : list (str * option E)) : option E := last (map snd ans) None.
Definition clean_before_last {E} (ans : list (str * option E)) : Prop :=
  Forall (fun e => e = None) (removelast (map snd ans)).
