(** * C110: the traces of Ring are possible *)
From Coq Require Import ZArith List Bool Lia Arith.
From Verif Require Import GoBase Trans XRingModel XRingSpec XRingProps SyncSpec SyncProofs FeasSpec FeasProofs FeasLock RingSyncModel RingSyncProps.
Import ListNotations.
Open Scope nat_scope.

Section P.
Variable V : Type.
Variable nilv : V.
Notation runs n := (traced (cinit nilv n) (@cstep V) ring_acts).
Notation ev := (ev place unit (label V)).
Notation ok := (ok (L := place) (M := unit) (B := label V) tt).
(** l lists the readers. *)
Definition readers (s : cstate V) (l : list nat) : Prop := NoDup l /\ forall t, In t l <-> rd s t = true.

Lemma readers_none : forall s l, readers s l -> (forall u, rd s u = false) -> l = [].
Proof. intros s [|t l] [_ R] H; auto. pose proof (proj1 (R t) (or_introl eq_refl)). rewrite H in *. discriminate. Qed.
Lemma readers_add : forall l (r r' : nat -> bool) t, NoDup l /\ (forall u, In u l <-> r u = true) -> r t = false -> (forall u, r' u = upd r t true u) -> NoDup (t :: l) /\ forall u, In u (t :: l) <-> r' u = true.
Proof.
  intros l r r' t [N R] Ht E. split.
  - constructor; auto. intros Hi. apply R in Hi. congruence.
  - intros u. rewrite E. unfold upd. cbn. destruct (Nat.eqb_spec t u) as [Q|Q]; [intuition|]. rewrite <- R. intuition.
Qed.
Lemma readers_del : forall l (r r' : nat -> bool) t, NoDup l /\ (forall u, In u l <-> r u = true) -> r t = true -> (forall u, r' u = upd r t false u) ->
  exists l', length l = S (length l') /\ NoDup l' /\ forall u, In u l' <-> r' u = true.
Proof.
  intros l r r' t [N R] Ht E. apply R in Ht. destruct (in_split _ _ Ht) as (l1 & l2 & ->). exists (l1 ++ l2). split; [rewrite !app_length; cbn; lia|].
  split; [now apply NoDup_remove_1 in N|]. apply NoDup_remove_2 in N. intros u. rewrite E. unfold upd. specialize (R u). rewrite in_app_iff in *. cbn in R.
  destruct (Nat.eqb_spec t u) as [<-|Q]; [|intuition congruence]. split; [|discriminate]. intros Hi. contradiction.
Qed.

Lemma crit_all : forall n tr T s, runs n tr T s -> forall t, rd s t = true -> rcrit (pcs s t).
Proof.
  intros n. apply (traced_ind_inv (cinit nilv n) (@cstep V) ring_acts (fun _ _ s => forall t, rd s t = true -> rcrit (pcs s t))).
  - intros s (_ & _ & Hr & _) t. rewrite Hr. discriminate.
  - intros tr T s l s' _ IH St t. inversion St; subst; unfold go; cbn [pcs rd]; unfold upd; destruct (Nat.eqb_spec t0 t) as [<-|N]; auto; cbn; auto; try discriminate;
      try (specialize (IH t0); rewrite H in IH; exact IH).
Qed.
Lemma ok_all : forall n tr T s, runs n tr T s -> exists l, readers s l /\ ok T (wr s) (length l).
Proof.
  intros n. apply (traced_ind_inv (cinit nilv n) (@cstep V) ring_acts (fun _ T s => exists l, readers s l /\ ok T (wr s) (length l))).
  - intros s (_ & Hw & Hr & Hp). exists []. split; [split; [constructor|]; intros t; rewrite Hr; cbn; intuition discriminate|]. rewrite Hw. apply ok_nil.
  - intros tr T s l s' R (rs & Rs & O) St. pose proof (J_all _ _ _ _ _ _ R) as [[Hw Hr] Hl _ _].
    inversion St; subst; unfold ring_acts, go; cbn [pcs wr rd cring]; try (rewrite H; cbn [ring_tau]).
    + exists rs. split; [exact Rs|]. now apply ok_lab.
    + exists rs. split; [exact Rs|]. now apply ok_lab.
    + (* Lock *) pose proof (readers_none _ _ Rs H1). subst rs. rewrite H0 in O. exists []. split; [exact Rs|]. now apply ok_lock.
    + exists rs. split; [exact Rs|]. rewrite H0. cbn [map]. apply ok_cons, ok_cons. apply ok_wr, ok_rd, ok_rd, O.
    + exists rs. split; [exact Rs|]. rewrite H0. cbn [map]. assert (E : wr s = Some t) by (apply Hw; rewrite H; exact I). rewrite E in O. apply ok_cons, ok_cons. eapply ok_unlk, ok_rd, ok_rd, O.
    + exists rs. split; [exact Rs|]. cbn [map]. apply ok_cons. apply ok_wr, ok_rd, O.
    + exists rs. split; [exact Rs|]. assert (E : wr s = Some t) by (apply Hw; rewrite H; exact I). rewrite E in O. apply ok_cons. eapply ok_lab, ok_unlk, O.
    + (* RLock *) rewrite H0 in *. exists (t :: rs). split; [|cbn [map length]; now apply ok_rlock].
      refine (readers_add rs (rd s) _ t Rs _ _); [|reflexivity]. destruct (rd s t) eqn:E; auto. exfalso. pose proof (crit_all _ _ _ _ R t E) as Hc. rewrite H in Hc. exact Hc.
    + exists rs. split; [exact Rs|]. rewrite H0. destruct (Z.ltb_spec size 0); [lia|]. cbn [map]. apply ok_cons. apply ok_rd, ok_rd, O.
    + assert (E : rd s t = true) by (apply Hr; rewrite H; exact I). assert (X : match take_bounds (cring s) with
      | Ok (size, _) => if (size <? 0)%Z then [@ARUnlk place unit (label V) tt] else [] | Panic => [ARUnlk tt] end = [ARUnlk tt]).
      { destruct H0 as [H0|(sz & st & H0 & Hlt)]; rewrite H0; auto. destruct (Z.ltb_spec sz 0); auto; lia. }
      rewrite X. destruct (readers_del rs (rd s) (upd (rd s) t false) t Rs E (fun _ => eq_refl)) as (rs' & El & Rs'). exists rs'. split; [exact Rs'|]. rewrite El in O.
      cbn [map]. apply ok_cons, ok_cons. apply ok_runlk, ok_rd, ok_rd, O.
    + exists rs. split; [exact Rs|]. destruct (Z.ltb_spec i size); [|lia]. rewrite H1. cbn [map]. apply ok_cons. apply ok_rd, ok_rd, O.
    + assert (E : rd s t = true) by (apply Hr; rewrite H; exact I). destruct (Z.ltb_spec i size); [|lia]. rewrite H1.
      destruct (readers_del rs (rd s) (upd (rd s) t false) t Rs E (fun _ => eq_refl)) as (rs' & El & Rs'). exists rs'. split; [exact Rs'|]. rewrite El in O.
      cbn [map]. apply ok_cons. apply ok_runlk, ok_rd, O.
    + exists rs. split; [exact Rs|]. destruct (Z.ltb_spec i size); [lia|]. cbn [map]. apply ok_end, O.
    + assert (E : rd s t = true) by (apply Hr; rewrite H; exact I). 
      destruct (readers_del rs (rd s) (upd (rd s) t false) t Rs E (fun _ => eq_refl)) as (rs' & El & Rs'). exists rs'. split; [exact Rs'|]. rewrite El in O.
      apply ok_cons. apply ok_lab, ok_runlk, O.
Qed.
(** C110: the traces that C103 is about can be: nobody gets the lock while somebody has it for writing, nor for writing while
    somebody has it for reading, and it is given back as often as it was taken at most. *)
Theorem C110_ring : forall n tr T s, runs n tr T s -> feasible T.
Proof. intros n tr T s R. destruct (ok_all _ _ _ _ R) as (l & _ & O). exact (o_fe _ _ _ _ O). Qed.
End P.
Print Assumptions C110_ring.

