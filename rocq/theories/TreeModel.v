(** * Model of stream expressions: operators and Concat, nested at will (xstream/xstream.go)

    PipeModel has pipelines, in which each operator reads the stream of the one before it.
    Concat (365-395; the function Concat 120-122 calls it) reads several streams, each of which
    may come out of its own pipeline, with more Concats inside.  An expression that uses each
    stream once is a tree.  A node of the tree is the group of goroutines of one operator
    (PipeModel's groups, or Concat's) with the channel it writes; its children are the streams
    it reads.  The channel rules are those of NetModel. *)
From Coq Require Import List Bool Arith ZArith Lia.
From Verif Require Import Trans NetModel NetSpec FanModel PipeModel.
Import ListNotations.
Open Scope nat_scope.

Section Tree.
Context {V E : Type}.
Notation proc := (proc V E). Notation chan := (chan V).

(** Concat's first goroutine: in the loop before the start of the i-th copying goroutine
    (369-372; the last one, 381-382, reads the receiver's stream); at wg.Wait() (389); ended *)
Inductive kpc := KLoop (i : nat) | KWait | KOver.
(** A copying goroutine: at the receive (373, 383); with an item to send (374, 384); before
    wg.Done() (376, 386); ended *)
Inductive kst := CTop | CHave (v : V) | CRet | CEnd.

(** The goroutines of one operator: those of PipeModel, reading one stream, or those of Concat,
    reading n streams: pc of the first one, the WaitGroup, the copying goroutines started so
    far (the i-th one reads the i-th stream) *)
Inductive node :=
| NOne (c : comp V E)
| NCat (n : nat) (d : kpc) (g : nat) (l : list kst).

(** What they do, as seen on the channels; ARecv i: a receive from the i-th stream *)
Inductive nact := AInt | ACall (e : E) | ARecv (i : nat) (o : option V) | ASnd (v : V) | ACls.
Definition nact_of (a : cact V E) : nact :=
  match a with KInt => AInt | KCall e => ACall e | KRecv o => ARecv 0 o | KSend v => ASnd v | KClose => ACls end.

Inductive gstep : node -> nact -> node -> Prop :=
| GOne : forall c a c', cstep c a c' -> gstep (NOne c) (nact_of a) (NOne c')
(* 369-372, 381-382: wg.Add(1); startGoroutine *)
| GSpawn : forall n i g l, i < n -> gstep (NCat n (KLoop i) g l) AInt (NCat n (KLoop (S i)) (S g) (l ++ [CTop]))
| GLoopEnd : forall n g l, gstep (NCat n (KLoop n) g l) AInt (NCat n KWait g l)
(* 373, 383: for item := range other.source *)
| GRecv : forall n d g l1 l2 v, gstep (NCat n d g (l1 ++ CTop :: l2)) (ARecv (length l1) (Some v)) (NCat n d g (l1 ++ CHave v :: l2))
| GRecvEnd : forall n d g l1 l2, gstep (NCat n d g (l1 ++ CTop :: l2)) (ARecv (length l1) None) (NCat n d g (l1 ++ CRet :: l2))
(* 374, 384: source <- item *)
| GSend : forall n d g l1 l2 v, gstep (NCat n d g (l1 ++ CHave v :: l2)) (ASnd v) (NCat n d g (l1 ++ CTop :: l2))
(* 376, 386: wg.Done() *)
| GDone : forall n d g l1 l2, gstep (NCat n d (S g) (l1 ++ CRet :: l2)) AInt (NCat n d g (l1 ++ CEnd :: l2))
(* 389-390: wg.Wait(); close(source) *)
| GShut : forall n l, gstep (NCat n KWait 0 l) ACls (NCat n KOver 0 l).

(** All goroutines of the operator have ended *)
Definition nfin (c : node) : Prop :=
  match c with
  | NOne c => fin c
  | NCat _ d _ l => d = KOver /\ Forall (fun x => x = CEnd) l
  end.
(** One of them panics by itself (PipeModel's bad; Concat's WaitGroup below zero) *)
Definition nbad (c : node) : Prop :=
  match c with
  | NOne c => bad c
  | NCat _ _ g l => g = 0 /\ In CRet l
  end.

(** An operator with the channel it writes, and the streams it reads *)
Inductive tree := Node (c : node) (o : chan) (ks : list tree).

(** A step of a tree: something inside it (QTau); a call of user code by the operator found at
    the end of the path (QCall); its reader receives an item (QOut), or sees the end (QEnd) *)
Inductive qlabel := QTau | QCall (path : list nat) (e : E) | QOut (v : V) | QEnd.

Inductive tmove : tree -> qlabel -> tree -> Prop :=
| TInt : forall c c' o ks, gstep c AInt c' -> tmove (Node c o ks) QTau (Node c' o ks)
| TCalls : forall c c' o ks e, gstep c (ACall e) c' -> tmove (Node c o ks) (QCall [] e) (Node c' o ks)
| TPut : forall c c' n b v ks, gstep c (ASnd v) c' -> length b < n ->
    tmove (Node c (Ch n b false) ks) QTau (Node c' (Ch n (b ++ [v]) false) ks)
| TShut : forall c c' n b ks, gstep c ACls c' -> tmove (Node c (Ch n b false) ks) QTau (Node c' (Ch n b true) ks)
(* the reader takes an item from the buffer, or from the sender directly if there is no buffer *)
| TTake : forall c n b cl v ks, tmove (Node c (Ch n (v :: b) cl) ks) (QOut v) (Node c (Ch n b cl) ks)
| THands : forall c c' v ks, gstep c (ASnd v) c' -> tmove (Node c (Ch 0 [] false) ks) (QOut v) (Node c' (Ch 0 [] false) ks)
| TEnds : forall c n ks, tmove (Node c (Ch n [] true) ks) QEnd (Node c (Ch n [] true) ks)
(* the operator is the reader of its children *)
| TGet : forall c c' o l1 k k' l2 v, gstep c (ARecv (length l1) (Some v)) c' -> tmove k (QOut v) k' ->
    tmove (Node c o (l1 ++ k :: l2)) QTau (Node c' o (l1 ++ k' :: l2))
| TGetEnd : forall c c' o l1 k k' l2, gstep c (ARecv (length l1) None) c' -> tmove k QEnd k' ->
    tmove (Node c o (l1 ++ k :: l2)) QTau (Node c' o (l1 ++ k' :: l2))
(* the children move *)
| TKid : forall c o l1 k k' l2, tmove k QTau k' -> tmove (Node c o (l1 ++ k :: l2)) QTau (Node c o (l1 ++ k' :: l2))
| TKidCall : forall c o l1 k k' l2 pt e, tmove k (QCall pt e) k' ->
    tmove (Node c o (l1 ++ k :: l2)) (QCall (length l1 :: pt) e) (Node c o (l1 ++ k' :: l2)).

(** An operator about to panic: by itself, or because it sends on or closes a closed channel *)
Inductive tfault : tree -> Prop :=
| FHere : forall c o ks, nbad c -> tfault (Node c o ks)
| FChan : forall c o ks a c', ccl o = true -> gstep c a c' -> match a with ASnd _ | ACls => True | _ => False end -> tfault (Node c o ks)
| FBelow : forall c o l1 k l2, tfault k -> tfault (Node c o (l1 ++ k :: l2)).
(** All goroutines have ended and all channels are empty *)
Inductive tover : tree -> Prop :=
| over_node : forall c o ks, nfin c -> cbuf o = [] -> Forall tover ks -> tover (Node c o ks).

(** Stream expressions: a source of xs; an operator with one goroutine; Walk(f) with w workers
    (Map, Filter, FlatMap); a.Concat(others...) (the streams are the others followed by a).
    The number after xs and p is the capacity of the channel. *)
Inductive sexp :=
| XSrc (xs : list V) (k : nat)
| XSeq (p : proc) (k : nat) (e : sexp)
| XWalk (f : V -> list V) (w : nat) (e : sexp)
| XCat (others : list sexp) (a : sexp).

(** The tree at its start *)
Fixpoint plant (e : sexp) : tree :=
  match e with
  | XSrc xs k => Node (NOne (CSeq (source xs))) (Ch k [] false) []
  | XSeq p k e => Node (NOne (CSeq p)) (Ch k [] false) [plant e]
  | XWalk f w e => Node (NOne (CWalk f w DTop 0 0 [])) (Ch w [] false) [plant e]
  | XCat es a => Node (NCat (S (length es)) (KLoop 0) 0 []) (Ch 0 [] false) (map plant es ++ [plant a])
  end.
(** a terminal operation t (one goroutine, the caller's) on the stream of e *)
Definition plant_end (t : proc) (e : sexp) : tree := Node (NOne (CSeq t)) (Ch 0 [] false) [plant e].
End Tree.
Arguments node : clear implicits. Arguments nact : clear implicits. Arguments tree : clear implicits. Arguments qlabel : clear implicits. Arguments sexp : clear implicits.
Arguments kst : clear implicits.
