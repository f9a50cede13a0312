(** * Property C95: Map with any key, also NaN and values that cannot be hashed

    Any sequence of calls by one goroutine.  Each call comes with the order in which Go iterates
    over a map during that call. *)
From Coq Require Import List Bool Arith Lia ZArith SetoidPermutation Permutation SpecFloat.
From Verif Require Import MapKeySpec MapKeyModel MapKeyProofs.
Import ListNotations.
Open Scope nat_scope.

Section Props.
Context {K V : Type} (geq : K -> K -> bool) (hashable : K -> bool).

(** A history: the state of the Map and the contents of a built-in Go map under the same calls,
    starting empty.  A call that panics (recovered by the caller) does not count for the Go map. *)
Inductive hist : mp K V -> list (K * V) -> Prop :=
| HStart : hist zero_map []
| HCall : forall m A ord o m' r, hist m A -> (forall l, Permutation (ord l) l) -> call geq hashable ord o m = (m', Ret r) -> hist m' (fst (go_call geq A o))
| HPanic : forall m A ord o m', hist m A -> (forall l, Permutation (ord l) l) -> call geq hashable ord o m = (m', Pan) -> hist m' A.

Definition usable (o : kop K V) : Prop := forall k, key_of_op o = Some k -> hashable k = true.
Lemma hist_good : go_equality geq -> forall m A, hist m A -> good geq hashable m A.
Proof.
  intros GE m A H. induction H as [|m A ord o m' r H IH O E|m A ord o m' H IH O E].
  - split; auto. apply inv_zero; auto.
  - assert (D : usable o \/ exists k, key_of_op o = Some k /\ hashable k = false).
    { unfold usable. destruct (key_of_op o) as [k|] eqn:EK; [|left; discriminate]. destruct (hashable k) eqn:HK; [left; intros k' [= <-]; auto|right; eauto]. }
    destruct D as [D|(k & EK & HK)].
    + destruct (call_ok geq hashable GE ord m A o O IH D) as (m2 & r2 & E2 & _ & G & _). rewrite E in E2. injection E2 as <- <-. exact G.
    + rewrite (call_bad geq hashable ord m o k EK HK) in E. discriminate.
  - assert (D : usable o \/ exists k, key_of_op o = Some k /\ hashable k = false).
    { unfold usable. destruct (key_of_op o) as [k|] eqn:EK; [|left; discriminate]. destruct (hashable k) eqn:HK; [left; intros k' [= <-]; auto|right; eauto]. }
    destruct D as [D|(k & EK & HK)].
    + destruct (call_ok geq hashable GE ord m A o O IH D) as (m2 & r2 & E2 & _ & G & _). rewrite E in E2. discriminate.
    + rewrite (call_bad geq hashable ord m o k EK HK) in E. injection E as <-. exact IH.
Qed.

(** A call with a key that can be hashed returns, with the result of the built-in map; Range shows
    exactly its pairs, up to which of several equal keys is shown. *)
Theorem C95_calls : go_equality geq -> forall m A ord o, hist m A -> (forall l, Permutation (ord l) l) -> usable o ->
  exists m' r pairs, call geq hashable ord o m = (m', Ret (r, pairs)) /\ r = snd (go_call geq A o) /\ (o = KRange -> same_map geq pairs A).
Proof.
  intros GE m A ord o H O U. destruct (call_ok geq hashable GE ord m A o O (hist_good GE m A H) U) as (m' & [r p] & E & R & _ & S). exists m', r, p. auto.
Qed.

(** A call with any other key panics, and that is all it does: nothing is stored, and the map is
    not left locked. *)
Theorem C95_unhashable : forall (m : mp K V) ord o k, key_of_op o = Some k -> hashable k = false -> call geq hashable ord o m = (m, Pan).
Proof. intros. eapply call_bad; eauto. Qed.
Theorem C95_never_stuck : go_equality geq -> forall m A ord (o : kop K V), hist m A -> (forall l, Permutation (ord l) l) ->
  snd (call geq hashable ord o m) <> Wait /\ (snd (call geq hashable ord o m) = Pan <-> exists k, key_of_op o = Some k /\ hashable k = false).
Proof.
  intros GE m A ord o H O.
  destruct (key_of_op o) as [k|] eqn:EK.
  - destruct (hashable k) eqn:HK.
    + destruct (C95_calls GE m A ord o H O) as (m' & r & p & E & _); [intros k' X; congruence|]. rewrite E. cbn. split; [discriminate|].
      split; [discriminate|]. intros (k' & [= <-] & X). congruence.
    + rewrite (C95_unhashable m ord o k EK HK). cbn. split; [discriminate|]. split; eauto.
  - destruct (C95_calls GE m A ord o H O) as (m' & r & p & E & _); [intros k' X; congruence|]. rewrite E. cbn. split; [discriminate|].
    split; [discriminate|]. intros (k' & X & _). congruence.
Qed.

(** ** A key unequal to itself (NaN) *)
(** It is never found: Load, LoadAndDelete, Delete and ComputeIfPresent do nothing and find
    nothing, LoadOrStore and ComputeIfAbsent always store. *)
Lemma nan_miss : go_equality geq -> forall (A : list (K * V)) k, geq k k = false -> glook geq A k = None.
Proof. intros GE A k N. apply glook_none. intros p _. destruct (hit geq k p) eqn:E; auto. apply (geq_self geq GE) in E. congruence. Qed.
Theorem C95_nan : go_equality geq -> forall m A ord o k m' r pairs, hist m A -> (forall l, Permutation (ord l) l) ->
  key_of_op o = Some k -> geq k k = false -> call geq hashable ord o m = (m', Ret (r, pairs)) ->
  snd r = false /\
  match o with
  | KStore _ v => hist m' ((k, v) :: A)
  | KLoadOrStore _ v => hist m' ((k, v) :: A) /\ fst r = Some v
  | KComputeIfAbsent _ f => hist m' ((k, f k) :: A) /\ fst r = Some (f k)
  | _ => hist m' A
  end.
Proof.
  intros GE m A ord o k m' r pairs H O EK N E.
  pose proof (HCall m A ord o m' _ H O E) as H'. pose proof (nan_miss GE A k N) as L.
  assert (D : gdel geq A k = A) by (apply gdel_miss; auto).
  assert (R : r = snd (go_call geq A o)).
  { destruct (hashable k) eqn:HK; [|rewrite (C95_unhashable m ord o k EK HK) in E; discriminate].
    destruct (C95_calls GE m A ord o H O) as (m2 & r2 & p2 & E2 & R & _); [intros k' X; congruence|]. rewrite E in E2. injection E2 as <- <- <-. auto. }
  destruct o; cbn in EK; try discriminate; injection EK as ->; cbn in H', R; unfold gset in *; rewrite ?L in H', R; cbn in H', R; rewrite ?D in H'; subst r; cbn; rewrite ?L; cbn; auto.
Qed.
(** So the pairs under such a key are those stored since the last Clear, all of them, in particular
    two Stores leave two pairs. *)
Theorem C95_nan_piles_up : go_equality geq -> forall m A k v w ord, hist m A -> (forall l, Permutation (ord l) l) -> geq k k = false -> hashable k = true ->
  exists m1 m2 m3 r1 r2 r3 pairs, call geq hashable ord (KStore k v) m = (m1, Ret r1) /\ call geq hashable ord (KStore k w) m1 = (m2, Ret r2) /\
    call geq hashable ord KRange m2 = (m3, Ret (r3, pairs)) /\ same_map geq pairs ((k, w) :: (k, v) :: A).
Proof.
  intros GE m A k v w ord H O N HK.
  destruct (C95_calls GE m A ord (KStore k v) H O) as (m1 & r1 & p1 & E1 & _); [intros k' [= <-]; auto|].
  destruct (C95_nan GE _ _ ord (KStore k v) k _ _ _ H O eq_refl N E1) as (_ & H1).
  destruct (C95_calls GE m1 _ ord (KStore k w) H1 O) as (m2 & r2 & p2 & E2 & _); [intros k' [= <-]; auto|].
  destruct (C95_nan GE _ _ ord (KStore k w) k _ _ _ H1 O eq_refl N E2) as (_ & H2).
  destruct (C95_calls GE m2 _ ord KRange H2 O) as (m3 & r3 & p3 & E3 & _ & S); [discriminate|].
  exists m1, m2, m3, (r1, p1), (r2, p2), r3, p3. auto.
Qed.
End Props.

(** ** Keys that Go programs use *)
Inductive gokey := GInt (n : Z) | GFloat (f : spec_float) | GSlice.
(** == on interface{}: the same dynamic type and equal values; float64 as in IEEE 754 *)
Definition gokey_eq (a b : gokey) : bool :=
  match a, b with GInt n, GInt m => Z.eqb n m | GFloat f, GFloat g => SFeqb f g | _, _ => false end.
Definition gokey_hashable (k : gokey) : bool := match k with GSlice => false | _ => true end.
Definition gonan : gokey := GFloat S754_nan.
Lemma SFeqb_alt : forall f g, SFeqb f g = true -> f = g \/ (exists s s', f = S754_zero s /\ g = S754_zero s').
Proof.
  intros f g. unfold SFeqb. destruct (SFcompare f g) as [c|] eqn:E; [|discriminate]. destruct c; try discriminate. intros _.
  destruct f as [s|s| |s m e], g as [s'|s'| |s' m' e']; cbn in E; try discriminate; try (right; eauto; fail);
    try (destruct s; discriminate); try (destruct s'; discriminate); try (destruct s, s'; (discriminate || (left; reflexivity))).
  left. destruct s, s'; try discriminate; injection E as E; (destruct (Z.compare_spec e e') as [X|X|X]; try discriminate; subst e'; cbn in E; injection E || idtac).
  all: change (Pos.compare_cont Eq m m') with (Pos.compare m m') in E; destruct (Pos.compare_spec m m') as [X|X|X]; cbn in E; try discriminate; subst; reflexivity.
Qed.
Lemma gokey_eq_ok : go_equality gokey_eq.
Proof.
  assert (S : forall a b, gokey_eq a b = true -> gokey_eq b a = true).
  { intros [n|f|] [m|g|]; cbn; try discriminate; intros E; [rewrite Z.eqb_sym; auto|].
    destruct (SFeqb_alt _ _ E) as [->|(s & s' & -> & ->)]; auto. }
  split; auto. intros [n|f|] [m|g|] [p|h|]; cbn; try discriminate; intros E E'.
  - apply Z.eqb_eq in E, E'. subst. apply Z.eqb_refl.
  - destruct (SFeqb_alt _ _ E) as [->|(s & s' & -> & ->)]; auto.
Qed.
(** 0.0 and -0.0 are one key; NaN is a new one each time; a slice panics and the map goes on working. *)
Example C95_ex : exists m A m' pairs,
  hist gokey_eq gokey_hashable m A /\ length A = 3 /\ gokey_eq (GFloat (S754_zero false)) (GFloat (S754_zero true)) = true /\ gokey_eq gonan gonan = false /\
  call gokey_eq gokey_hashable (fun l => rev l) (KLoad (GFloat (S754_zero true))) m = (m', Ret ((Some 7, true), [])) /\
  snd (call gokey_eq gokey_hashable (fun l => rev l) KRange m) = Ret (no_answer, pairs) /\ length pairs = 3 /\
  snd (call gokey_eq gokey_hashable (fun l => rev l) (KStore GSlice 1) m) = Pan.
Proof.
  assert (O : forall l : list (gokey * nat), Permutation (rev l) l) by (intros; symmetry; apply Permutation_rev).
  pose proof (HStart gokey_eq gokey_hashable (V := nat)) as H.
  eapply HCall with (ord := fun l => rev l) (o := KStore gonan 1) in H; [|exact O|vm_compute; reflexivity].
  eapply HPanic with (ord := fun l => rev l) (o := KLoadOrStore GSlice 1) in H; [|exact O|vm_compute; reflexivity].
  eapply HCall with (ord := fun l => rev l) (o := KStore gonan 1) in H; [|exact O|vm_compute; reflexivity].
  eapply HCall with (ord := fun l => rev l) (o := KStore (GFloat (S754_zero false)) 7) in H; [|exact O|vm_compute; reflexivity].
  eapply HCall with (ord := fun l => rev l) (o := KRange) in H; [|exact O|vm_compute; reflexivity].
  eapply HCall with (ord := fun l => rev l) (o := KDelete gonan) in H; [|exact O|vm_compute; reflexivity].
  eexists _, _, _, _. split; [exact H|]. vm_compute. repeat split.
Qed.

Print Assumptions C95_calls. Print Assumptions C95_unhashable. Print Assumptions C95_never_stuck.
Print Assumptions C95_nan. Print Assumptions C95_nan_piles_up. Print Assumptions C95_ex.
