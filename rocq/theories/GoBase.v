(** * Shared vocabulary for modelling Go code.

    Nothing here models a function of /repo; these are the Go language
    notions the models are written with. *)
From Coq Require Import ZArith List Bool Lia.
Import ListNotations.
Open Scope Z_scope.

(** Outcome of a Go call that may panic (index out of range, explicit panic...). *)
Inductive res (A : Type) : Type :=
| Ok (a : A)
| Panic.
Arguments Ok {A} a.
Arguments Panic {A}.

Definition res_bind {A B} (r : res A) (f : A -> res B) : res B :=
  match r with Ok a => f a | Panic => Panic end.

Definition res_map {A B} (f : A -> B) (r : res A) : res B :=
  match r with Ok a => Ok (f a) | Panic => Panic end.

(** Go int on a 64-bit platform: two's complement wrap-around. *)
Definition wrap64 (z : Z) : Z := (z + 2^63) mod 2^64 - 2^63.
Definition max_int : Z := 2^63 - 1.
Definition min_int : Z := - 2^63.
Definition is_int (z : Z) : Prop := min_int <= z <= max_int.

(** Go's length as an int. *)
Definition zlen {A} (l : list A) : Z := Z.of_nat (length l).

(** Slice/array indexing [l[i]]: panics when out of range. *)
Definition idx {A} (l : list A) (i : Z) : res A :=
  if i <? 0 then Panic
  else match nth_error l (Z.to_nat i) with Some x => Ok x | None => Panic end.

(** Slicing [l[a:b]] of a slice whose capacity equals its length. *)
Definition slice {A} (l : list A) (a b : Z) : res (list A) :=
  if (0 <=? a) && (a <=? b) && (b <=? zlen l)
  then Ok (firstn (Z.to_nat (b - a)) (skipn (Z.to_nat a) l))
  else Panic.

(** Byte strings. A Go string is a sequence of bytes; bytes are integers 0..255.
    No definition below relies on the bound unless it says so. *)
Notation byte := Z (only parsing).
Notation str := (list Z) (only parsing).
Definition is_byte (b : Z) : Prop := 0 <= b < 256.

Fixpoint str_eqb (a b : str) : bool :=
  match a, b with
  | [], [] => true
  | x :: a', y :: b' => (x =? y) && str_eqb a' b'
  | _, _ => false
  end.

Lemma str_eqb_eq : forall a b, str_eqb a b = true <-> a = b.
Proof.
  induction a as [|x a IH]; destruct b as [|y b]; simpl; split; intros H; try easy.
  - apply andb_true_iff in H. destruct H as [H1 H2].
    apply Z.eqb_eq in H1. apply IH in H2. now subst.
  - inversion H; subst. rewrite Z.eqb_refl. simpl. now apply IH.
Qed.

Lemma str_eqb_neq : forall a b, str_eqb a b = false <-> a <> b.
Proof.
  intros a b. rewrite <- str_eqb_eq. destruct (str_eqb a b); split; congruence.
Qed.

Lemma zlen_nonneg : forall {A} (l : list A), 0 <= zlen l.
Proof. intros; unfold zlen; lia. Qed.

Lemma zlen_app : forall {A} (l1 l2 : list A), zlen (l1 ++ l2) = zlen l1 + zlen l2.
Proof. intros; unfold zlen; rewrite app_length; lia. Qed.

Lemma zlen_cons : forall {A} (x : A) l, zlen (x :: l) = 1 + zlen l.
Proof. intros; unfold zlen; simpl length; lia. Qed.

Lemma zlen_nil : forall {A}, zlen (@nil A) = 0.
Proof. reflexivity. Qed.

Lemma zlen_0 : forall {A} (l : list A), zlen l = 0 -> l = [].
Proof. intros A [|x l]; unfold zlen; simpl; intros; [easy|lia]. Qed.

Lemma idx_ok : forall {A} (l : list A) i, 0 <= i < zlen l ->
  exists x, nth_error l (Z.to_nat i) = Some x /\ idx l i = Ok x.
Proof.
  intros A l i H. unfold idx.
  destruct (i <? 0) eqn:E; [lia|].
  destruct (nth_error l (Z.to_nat i)) eqn:F; [eauto|].
  apply nth_error_None in F. unfold zlen in H. lia.
Qed.

Lemma idx_panic : forall {A} (l : list A) i, idx l i = Panic <-> ~ (0 <= i < zlen l).
Proof.
  intros A l i. split.
  - intros H B. destruct (idx_ok l i B) as (x & _ & E). congruence.
  - intros H. unfold idx. destruct (i <? 0) eqn:E; [easy|].
    destruct (nth_error l (Z.to_nat i)) eqn:F; [|easy].
    assert (Z.to_nat i < length l)%nat by (apply nth_error_Some; congruence).
    unfold zlen in H. lia.
Qed.

Lemma slice_ok : forall {A} (l : list A) a b, 0 <= a -> a <= b -> b <= zlen l ->
  slice l a b = Ok (firstn (Z.to_nat (b - a)) (skipn (Z.to_nat a) l)).
Proof.
  intros. unfold slice.
  destruct (0 <=? a) eqn:E1, (a <=? b) eqn:E2, (b <=? zlen l) eqn:E3; simpl; auto; lia.
Qed.

Lemma wrap64_id : forall z, is_int z -> wrap64 z = z.
Proof.
  intros z H. unfold is_int, min_int, max_int in H. unfold wrap64.
  rewrite Z.mod_small; lia.
Qed.
