(** * C91: several readers of one stream, and one operation after another on it *)
From Coq Require Import List Bool Arith ZArith Lia.
From Verif Require Import GoBase Trans NetModel NetSpec XStreamModel ShareModel ShareSpec ShareProofs.
Import ListNotations.
Open Scope nat_scope.

(** Whatever the readers do and however they are scheduled: the items are received in order, each
    by one reader ([who] tells by whom), and a reader receives the items that are its own in
    order. *)
Theorem C91_each_once : forall V E (fork : E -> option (proc V E)) xs n R tr s, steps (hstep fork) (shared xs n R) tr s ->
  prefix (taken tr) xs /\
  (exists who, length who = length (taken tr) /\ forall j, taken_by j tr = share_of (taken tr) who j) /\
  forall j, subseq (taken_by j tr) xs.
Proof.
  intros V E fork xs n R tr ((q & c) & R') H. destruct (src_inv _ _ _ _ _ _ _ _ H) as (rs & _ & _ & T & _).
  split; [exists (cbuf c ++ rs); exact T|]. split.
  - clear. exists (flat_map (fun l => match l with HGet j (Some _) => [j] | _ => [] end) tr).
    induction tr as [|l tr [IH1 IH2]]; [split; auto|]. destruct l as [|i [v|]|i e]; [exact (conj IH1 IH2)| |exact (conj IH1 IH2)|exact (conj IH1 IH2)].
    split; [cbn; f_equal; exact IH1|]. intros j. change (taken (HGet i (Some v) :: tr)) with (v :: taken tr). cbn [flat_map app].
    unfold share_of. cbn [combine filter fst]. change (taken_by j (HGet i (Some v) :: tr)) with ((if i =? j then [v] else []) ++ taken_by j tr).
    rewrite IH2. destruct (i =? j); reflexivity.
  - intros j. rewrite T. apply subseq_app_r, taken_by_sub.
Qed.
Print Assumptions C91_each_once.

(** A reader sees the end only when all items have been received, by it or by others, and from
    then on no reader receives anything. *)
Theorem C91_end : forall V E (fork : E -> option (proc V E)) xs n R tr1 j tr2 s,
  steps (hstep fork) (shared xs n R) (tr1 ++ HGet j None :: tr2) s -> taken tr1 = xs /\ taken tr2 = [].
Proof. intros. eapply seen_end; eauto. Qed.
Print Assumptions C91_end.

(** Any number of goroutines that call terminal operations on the stream, one after another: no
    schedule lets any of them wait for ever, all end after a bounded number of steps; when nothing
    moves any more, all operations have returned, all draining goroutines have ended, and, if there
    was any operation at all, all items have been received and the goroutine that sends them
    has ended. *)
Theorem C91_finishes : forall A (C : list (list (use A))) xs n tr s, steps (hstep forks) (shared xs n (map caller C)) tr s ->
  length tr <= 3 * length xs + 1 + 3 * length (concat C) /\
  ((exists l s', hstep forks s l s') \/
   (Forall (fun p => p = PEnd) (snd s) /\ (concat C <> [] -> taken tr = xs /\ fst (fst s) = PEnd))).
Proof.
  intros A C xs n tr s H. split.
  - destruct s as ((q & c) & R). destruct (pot_inv _ _ _ _ _ _ _ _ _ (pots C) H) as (ms & rs & _ & _ & L).
    assert (T : tot (map (fun us => 3 * length us) C) = 3 * length (concat C)).
    { clear. induction C as [|us C IH]; auto. cbn [map concat tot]. rewrite app_length, IH. lia. }
    lia.
  - destruct (go_on _ _ _ _ _ _ _ (pots C) H) as [M|[F G]]; [left; exact M|right]. split; auto. intros NE.
    assert (X : taken tr = xs).
    { destruct s as ((q & c) & R). apply (all_taken _ _ _ _ _ _ _ H F). clear -NE. induction C as [|[|u us] C IH]; [cbn in NE; congruence| |].
      - destruct (IH NE) as (u & us & I). exists u, us. now right.
      - exists u, us. now left. }
    auto.
Qed.
Print Assumptions C91_finishes.

(** An operation works on what its caller receives: when caller j has done all its operations,
    their callbacks and results are those of the same operations, one after another, on
    a stream of its own that holds the items it has received. *)
Theorem C91_results : forall A (C : list (list (use A))) xs n tr s R j us, steps (hstep forks) (shared xs n (map caller C)) tr (s, R) ->
  nth_error C j = Some us -> nth_error R j = Some PEnd -> said j tr = results us (taken_by j tr).
Proof.
  intros A C xs n tr s R j us H I N. apply (map_nth_error caller) in I. unfold shared in H.
  destruct (reader_inv _ _ _ _ _ _ H _ _ I) as (p & N' & Rn). rewrite N in N'. inversion N'; subst p.
  rewrite <- saids_view, <- gots_view. apply caller_done; auto. exact (view_wf _ _ _ _ _ _ j H).
Qed.
Print Assumptions C91_results.

(** One goroutine that calls operation u and then the operations us on the stream xs: u has the
    outcome it has on xs; the following operations see of what u leaves any items, in order, the
    others being lost to the draining goroutine; and each such selection does happen. *)
Theorem C91_one_caller : forall A n (xs : list (item A)) u us out,
  (exists tr s R, steps (hstep forks) (shared xs n [caller (u :: us)]) tr (s, PEnd :: R) /\ said 0 tr = out) <->
  (exists ys, subseq ys (snd (outcome u xs)) /\ out = fst (outcome u xs) ++ results us ys).
Proof.
  intros A n xs u us out. split.
  - intros (tr & s & R & H & <-). exact (one_result _ _ _ _ _ _ _ H).
  - intros (ys & L & ->). exact (one_run _ _ _ _ _ L).
Qed.
Print Assumptions C91_one_caller.

(** A stream that an operation has read to its end is empty for all later operations. *)
Theorem C91_used_up : forall A n (xs : list (item A)) u us tr s R, snd (outcome u xs) = [] ->
  steps (hstep forks) (shared xs n [caller (u :: us)]) tr (s, PEnd :: R) -> said 0 tr = fst (outcome u xs) ++ results us [].
Proof.
  intros A n xs u us tr s R E H. destruct (one_result _ _ _ _ _ _ _ H) as (ys & L & ->). rewrite E in L. now rewrite (subseq_nil_inv _ _ L).
Qed.
Print Assumptions C91_used_up.

(** Count after FindFirst can return every number up to the number of the remaining items. *)
Theorem C91_count_after_first : forall A n (x : item A) xs c, (zlen xs <= max_int)%Z ->
  (exists tr s R, steps (hstep forks) (shared (x :: xs) n [caller [UFindFirst; UCount]]) tr (s, PEnd :: R) /\ said 0 tr = [RetI (Some x); RetZ c]) <->
  (0 <= c <= zlen xs)%Z.
Proof.
  intros A n x xs c M. rewrite C91_one_caller. cbn [outcome fst snd results app]. split.
  - intros (ys & L & E). inversion E; subst.
    assert (B : length ys <= length xs) by (clear -L; induction L; cbn; lia).
    rewrite wrap64_id by (unfold is_int, min_int, max_int, zlen in *; lia). unfold zlen. lia.
  - intros [C1 C2]. exists (firstn (Z.to_nat c) xs). split.
    + rewrite <- (firstn_skipn (Z.to_nat c) xs) at 2. apply subseq_app_r, subseq_refl.
    + unfold zlen in *. rewrite firstn_length_le by lia. rewrite Z2Nat.id by lia. rewrite wrap64_id by (unfold is_int, min_int, max_int in *; lia). reflexivity.
Qed.
Print Assumptions C91_count_after_first.

(** Goroutines that each call Foreach on the stream can share the items in every way. *)
Theorem C91_every_division : forall A n m (xs : list (item A)) who, length who = length xs -> Forall (fun j => j < m) who ->
  exists tr s, steps (hstep forks) (shared xs n (map caller (repeat [UForeach] m))) tr s /\
    forall j, taken_by j tr = share_of xs who j /\ said j tr = map CallF (share_of xs who j).
Proof.
  intros A n m xs who L F. destruct (deal n xs who (map caller (repeat [UForeach] m))) as (tr & H & K); auto.
  - now rewrite map_length, repeat_length.
  - apply Forall_forall. intros p I. apply in_map_iff in I as (us & <- & I). apply repeat_spec in I. now subst.
  - exists tr, (shared [] n (map caller (repeat [UForeach] m))). auto.
Qed.
Print Assumptions C91_every_division.

(** ** Cases *)
Definition s3 : list (item nat) := [IAtom 1; IAtom 2; IAtom 3].
Definition isn (n : nat) (x : item nat) : bool := match x with IAtom a => a =? n | _ => false end.
(** AnyMach stops at 2; Foreach then may see 3 or nothing *)
Example ex_any_foreach : forall n, exists tr s R, steps (hstep forks) (shared s3 n [caller [UAnyMach (isn 2); UForeach]]) tr (s, PEnd :: R) /\
  said 0 tr = [CallF (IAtom 1); CallF (IAtom 2); RetB true; CallF (IAtom 3); RetU].
Proof. intros n. apply C91_one_caller. exists [IAtom 3]. split; [apply subseq_refl|reflexivity]. Qed.
Example ex_any_foreach' : forall n, exists tr s R, steps (hstep forks) (shared s3 n [caller [UAnyMach (isn 2); UForeach]]) tr (s, PEnd :: R) /\
  said 0 tr = [CallF (IAtom 1); CallF (IAtom 2); RetB true; RetU].
Proof. intros n. apply C91_one_caller. exists []. split; [apply subseq_nil|reflexivity]. Qed.
(** but never 1 again *)
Example ex_any_never : forall n tr s R, steps (hstep forks) (shared s3 n [caller [UAnyMach (isn 2); UFindFirst]]) tr (s, PEnd :: R) ->
  said 0 tr = [CallF (IAtom 1); CallF (IAtom 2); RetB true; RetI (Some (IAtom 3))] \/ said 0 tr = [CallF (IAtom 1); CallF (IAtom 2); RetB true; RetI None].
Proof.
  intros n tr s R H. destruct (proj1 (C91_one_caller _ n s3 _ _ _) (ex_intro _ tr (ex_intro _ s (ex_intro _ R (conj H eq_refl))))) as (ys & L & ->).
  cbn in L |- *. inversion L; subst; [right; apply subseq_nil_inv in H2; subst; reflexivity|left; apply subseq_nil_inv in H2; subst; reflexivity].
Qed.
(** Count twice *)
Example ex_count_twice : forall n tr s R, steps (hstep forks) (shared s3 n [caller [UCount; UCount]]) tr (s, PEnd :: R) -> said 0 tr = [RetZ 3; RetZ 0].
Proof. intros n tr s R H. exact (C91_used_up _ n s3 UCount [UCount] tr s R eq_refl H). Qed.
(** two goroutines share three items *)
Example ex_two : forall n, exists tr s, steps (hstep forks) (shared s3 n (map caller [[UForeach]; [UForeach]])) tr s /\
  taken_by 0 tr = [IAtom 2] /\ taken_by 1 tr = [IAtom 1; IAtom 3].
Proof.
  intros n. destruct (C91_every_division nat n 2 s3 [1; 0; 1]) as (tr & s & H & K); [reflexivity|repeat constructor|].
  exists tr, s. split; [exact H|]. destruct (K 0) as [-> _]. destruct (K 1) as [-> _]. auto.
Qed.
