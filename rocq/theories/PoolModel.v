(** * Model of xbytes/pool.go with its pools made on demand

    XBytesModel takes one sync.Pool per capacity for granted.  Here getOrCreatePool (pool.go:50-62)
    is explicit: any number of goroutines call Malloc and Free, each of which looks up its pool
    through singleflight.Group.Do around the ComputeIfAbsent of an xsync.Map (MapConcModel, one
    step per shared access).  The pools are objects with an identity.

    singleflight is modelled by contract, as in RMModel: a caller may still join a flight whose
    result is published and whose key is not forgotten yet.  sync.Pool may return any element put into
    that pool, call New, or lose elements at any moment. *)
From Coq Require Import ZArith List Bool Arith String DecimalString.
From stdpp Require Import gmap strings.
From Verif Require Import GoBase Trans MapConcSpec MapConcModel.
From Verif Require XBytesModel.
Import ListNotations.
Notation slice_v := XBytesModel.slice_v.

(** A sync.Pool made at pool.go:53-56: a number of its own and the c its New closes over *)
Definition pool_t : Type := nat * Z.
(** pool.go:52: bytesPoolMap.ComputeIfAbsent(c, ...); the function makes a pool for c. *)
Definition cia (c : Z) : op Z pool_t := OCia c (fun p => snd p = c).
(** strconv.Itoa, pool.go:51 *)
Definition itoa (c : Z) : string := NilZero.string_of_int (Z.to_int c).

(** Why the pool is wanted: Malloc (39), Free of a slice the caller had (67), Free of any other *)
Inductive job := JMalloc (size capacity : Z) | JFree | JFreeAny (s : slice_v).

Inductive gpc :=
| GIdle
| GDo (c : Z) (j : job)                          (* 51, before singleFlight.Do *)
| GRun (n : nat) (c : Z) (j : job)               (* in the ComputeIfAbsent, as the function of the n-th flight *)
| GPub (n : nat) (c : Z) (p : pool_t) (j : job)  (* 51, the result is published, the key not forgotten yet *)
| GWait (n : nat) (c : Z) (j : job)              (* 51, waiting for the n-th flight *)
| GGot (p : pool_t) (j : job)                    (* 40 or 69 *)
| GPanic.

(** singleFlight: the flight of each key, the number of flights so far, their results *)
Record sf := SF { fl : gmap string nat; nf : nat; rs : nat -> option pool_t }.
(** Memory: pooled slices with their pools, number of blocks, contents, slices callers hold *)
Record bm := BM { pls : list (pool_t * slice_v); nb : nat; hp : XBytesModel.cell -> Z; lv : list slice_v }.
Record gst := GST {
  mp : st Z pool_t;             (* bytesPoolMap *)
  fg : sf;
  np : nat;                     (* pools made so far *)
  bs : bm;
  fs : gmap nat slice_v;        (* the argument of the Free each goroutine is in *)
  gp : nat -> gpc
}.

Inductive glabel :=
| GCall (t : nat)
| GPool (t : nat) (c : Z) (p : pool_t)           (* getOrCreatePool(c) returns p *)
| GMem (t : nat) (l : XBytesModel.label)         (* Malloc returns, Free puts, callers use what they hold *)
| GTau (t : nat).

Definition key_of (t : nat) (f : gmap nat slice_v) (j : job) : option Z :=
  match j with
  | JMalloc size capacity => Some (XBytesModel.malloc_key size capacity)
  | JFree => XBytesModel.scap <$> f !! t
  | JFreeAny s => Some (XBytesModel.scap s)
  end.
Definition is_user (l : XBytesModel.label) : bool :=
  match l with XBytesModel.LSplit _ _ | XBytesModel.LForget _ | XBytesModel.LWrite _ _ _ => true | _ => false end.
(** what Malloc returns joins the slices callers hold *)
Definition hold (r : GoBase.res slice_v) (l : list slice_v) : list slice_v := match r with Ok s => s :: l | Panic => l end.

(** [owned] as in XBytesModel.step: whether callers free only what they hold. *)
Inductive gstep (owned : bool) : gst -> glabel -> gst -> Prop :=
(* 32-39 *)
| GSMalloc : forall m f n b x g t size capacity, g t = GIdle ->
    gstep owned (GST m f n b x g) (GCall t)
      (GST m f n b x (upd g t (GDo (XBytesModel.malloc_key size capacity) (JMalloc size capacity))))
(* 65-67: the caller gives the slice up *)
| GSFree : forall m f n p a h l1 s l2 x g t, g t = GIdle ->
    gstep owned (GST m f n (BM p a h (l1 ++ s :: l2)) x g) (GCall t)
      (GST m f n (BM p a h (l1 ++ l2)) (<[t := s]> x) (upd g t (GDo (XBytesModel.scap s) JFree)))
| GSFreeAny : forall m f n b x g t s, owned = false -> g t = GIdle ->
    (XBytesModel.blk s < nb b)%nat -> (0 <= XBytesModel.off s)%Z -> (0 <= XBytesModel.slen s <= XBytesModel.scap s)%Z ->
    gstep owned (GST m f n b x g) (GCall t) (GST m f n b x (upd g t (GDo (XBytesModel.scap s) (JFreeAny s))))
(* 51: nobody is looking up this size: the function runs, 52 *)
| GSLead : forall m m' f k r n b x g t c j, g t = GDo c j -> f !! itoa c = None -> cstep m (LCall t (cia c)) m' ->
    gstep owned (GST m (SF f k r) n b x g) (GTau t) (GST m' (SF (<[itoa c := k]> f) (S k) r) n b x (upd g t (GRun k c j)))
| GSJoin : forall m f n b x g t c j k, g t = GDo c j -> fl f !! itoa c = Some k ->
    gstep owned (GST m f n b x g) (GTau t) (GST m f n b x (upd g t (GWait k c j)))
| GSMap : forall h p h' p' f n b x g t k c j, g t = GRun k c j -> tstep t h (p t) LTau h' p' ->
    gstep owned (GST (St h p) f n b x g) (GTau t) (GST (St h' (upd p t p')) f n b x g)
(* 53-57: a new pool *)
| GSComp : forall h p h' p' f n b x g t k c j old, g t = GRun k c j -> tstep t h (p t) (LComp t old (Some (n, c))) h' p' ->
    gstep owned (GST (St h p) f n b x g) (GTau t) (GST (St h' (upd p t p')) f (S n) b x g)
| GSCrash : forall h p h' p' f n b x g t k c j, g t = GRun k c j -> tstep t h (p t) (LCrash t) h' p' ->
    gstep owned (GST (St h p) f n b x g) (GTau t) (GST (St h' (upd p t p')) f n b x (upd g t GPanic))
(* 59: the result is published *)
| GSRet : forall h p h' p' f k0 r n b x g t k c j o v l, g t = GRun k c j -> tstep t h (p t) (LRet t o (Some v, l)) h' p' ->
    gstep owned (GST (St h p) (SF f k0 r) n b x g) (GTau t)
      (GST (St h' (upd p t p')) (SF f k0 (upd r k (Some v))) n b x (upd g t (GPub k c v j)))
(* the key is forgotten; 61 *)
| GSForget : forall m f k0 r n b x g t k c v j, g t = GPub k c v j ->
    gstep owned (GST m (SF f k0 r) n b x g) (GPool t c v) (GST m (SF (delete (itoa c) f) k0 r) n b x (upd g t (GGot v j)))
(* 61: the assertion fails on nil *)
| GSRetNil : forall h p h' p' f n b x g t k c j o l, g t = GRun k c j -> tstep t h (p t) (LRet t o (None, l)) h' p' ->
    gstep owned (GST (St h p) f n b x g) (GTau t) (GST (St h' (upd p t p')) f n b x (upd g t GPanic))
| GSWake : forall m f n b x g t k c j v, g t = GWait k c j -> rs f k = Some v ->
    gstep owned (GST m f n b x g) (GPool t c v) (GST m f n b x (upd g t (GGot v j)))
(* 40-42: pool.Get gives an element of this pool, or New makes one; then [:size] *)
| GSReuse : forall m f n p1 p s p2 a h l x g t size capacity r, g t = GGot p (JMalloc size capacity) ->
    XBytesModel.reslice s 0 size = r ->
    gstep owned (GST m f n (BM (p1 ++ (p, s) :: p2) a h l) x g) (GMem t (XBytesModel.LMalloc size capacity r))
      (GST m f n (BM (p1 ++ p2) a h (hold r l)) x (upd g t GIdle))
| GSNew : forall m f n ps p a h l x g t size capacity r, g t = GGot p (JMalloc size capacity) ->
    res_bind (XBytesModel.make_empty a (snd p)) (fun s => XBytesModel.reslice s 0 size) = r ->
    gstep owned (GST m f n (BM ps a h l) x g) (GMem t (XBytesModel.LMalloc size capacity r))
      (GST m f n (BM ps (S a) (XBytesModel.zero_block h a) (hold r l)) x (upd g t GIdle))
(* 68-69 *)
| GSPut : forall m f n ps p a h l x g t s, g t = GGot p JFree -> x !! t = Some s ->
    gstep owned (GST m f n (BM ps a h l) x g) (GMem t (XBytesModel.LFree s))
      (GST m f n (BM ((p, snd (XBytesModel.free_entry s)) :: ps) a h l) (delete t x) (upd g t GIdle))
| GSPutAny : forall m f n ps p a h l x g t s, g t = GGot p (JFreeAny s) ->
    gstep owned (GST m f n (BM ps a h l) x g) (GMem t (XBytesModel.LFree s))
      (GST m f n (BM ((p, snd (XBytesModel.free_entry s)) :: ps) a h l) x (upd g t GIdle))
(* a sync.Pool loses an element *)
| GSDrop : forall m f n p1 e p2 a h l x g t,
    gstep owned (GST m f n (BM (p1 ++ e :: p2) a h l) x g) (GMem t XBytesModel.LPoolDrop) (GST m f n (BM (p1 ++ p2) a h l) x g)
(* callers use the slices they hold as in XBytesModel *)
| GSUser : forall m f n ps a h l a' h' l' x g t u, is_user u = true ->
    XBytesModel.step owned (XBytesModel.St [] a h l) u (XBytesModel.St [] a' h' l') ->
    gstep owned (GST m f n (BM ps a h l) x g) (GMem t u) (GST m f n (BM ps a' h' l') x g).

Definition ginit (s : gst) : Prop := exists m h, cinit m /\ s = GST m (SF ∅ 0 (fun _ => None)) 0 (BM [] 0 h []) ∅ (fun _ => GIdle).
(** The actions on memory, in order *)
Definition mems (tr : list glabel) : list XBytesModel.label := flat_map (fun l => match l with GMem _ u => [u] | _ => [] end) tr.
(** A step of the call goroutine t is in *)
Definition goes_on (t : nat) (l : glabel) : Prop :=
  match l with
  | GTau u | GPool u _ _ | GMem u (XBytesModel.LMalloc _ _ _) | GMem u (XBytesModel.LFree _) => u = t
  | _ => False
  end.
(** A call begins; a call in progress takes a step; how many labels of a run are such *)
Definition begins (l : glabel) : bool := match l with GCall _ => true | _ => false end.
Definition goes (l : glabel) : bool :=
  match l with GTau _ | GPool _ _ _ | GMem _ (XBytesModel.LMalloc _ _ _) | GMem _ (XBytesModel.LFree _) => true | _ => false end.
Definition count (f : glabel -> bool) (tr : list glabel) : nat := length (List.filter f tr).
