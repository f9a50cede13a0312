(** * C103 for Ring: no data race, and what was done before an Add is visible to the Take that returns its value *)
From Coq Require Import ZArith List Bool Lia.
From Verif Require Import GoBase Trans XRingModel XRingSpec XRingProps SyncSpec SyncProofs RingSyncModel.
Import ListNotations.
Open Scope nat_scope.

Section P.
Variable V : Type.
Variable nilv : V.
Notation runs n := (traced (cinit nilv n) (@cstep V) ring_acts).
Notation ev := (ev place unit (label V)).

(** Who holds the lock, by the program counters. *)
Definition held (s : cstate V) : Prop :=
  (forall t, wcrit (pcs s t) -> wr s = Some t) /\ (forall t, rcrit (pcs s t) -> rd s t = true).

Lemma held_step : forall s l s', (forall t u, wr s = Some t -> rd s u = false) -> held s -> cstep s l s' -> held s'.
Proof.
  intros s l s' He [Hw Hr] St.
  inversion St; subst; (split; intros u; unfold go; cbn [pcs wr rd cring]); unfold upd; destruct (Nat.eqb_spec t u) as [E|E]; try subst u;
    cbn; try tauto; intros Hu; auto;
    try (apply Hw; rewrite H; exact I); try (apply Hr; rewrite H; exact I);
    try (apply Hw in Hu; congruence); try (specialize (Hw u Hu); specialize (Hw t); rewrite H in Hw; cbn in Hw; specialize (Hw I); congruence).
  all: try (assert (Ht : wr s = Some t) by (apply Hw; rewrite H; exact I); apply Hw in Hu; congruence).
Qed.

Notation lk := (guarded (L := place) (M := unit) (B := label V) tt).
Notation call t v := (t%nat, ALab (LCall t%nat (Some v))).
Definition holds (p : pc V) (v : V) : Prop := match p with AWait w | AWrite w | ABump w | AUnlock w => w = v | _ => False end.

Lemma q_labv : forall l : label V, quiet (L := place) (M := unit) (ALab l).
Proof. intros. apply q_lab. Qed.

Ltac one := rewrite ?app_nil_r; rewrite <- ?app_assoc; cbn [app].
Ltac chain T x := change x with ([] ++ x).

Lemma lk_step : forall (T : list ev) s l s', held s -> lk T (wr s) (rd s) -> cstep s l s' -> lk (T ++ ring_acts s l) (wr s') (rd s').
Proof.
  intros T s l s' [Hw Hr] G St.
  assert (C2 : forall (U : list ev) a b, U ++ [a; b] = (U ++ [a]) ++ [b]) by (intros; now rewrite <- app_assoc).
  assert (C3 : forall (U : list ev) a b c, U ++ [a; b; c] = ((U ++ [a]) ++ [b]) ++ [c]) by (intros; now rewrite <- !app_assoc).
  inversion St; subst; unfold ring_acts, go; cbn [pcs wr rd cring];
    try (rewrite H; cbn [ring_tau]);
    try (apply guarded_quiet; auto using q_labv; discriminate).
  - (* Lock *) rewrite H0 in G. cbn. apply guarded_lock; auto.
  - (* write *) rewrite H0. cbn [map]. rewrite C3. assert (E : wr s = Some t) by (apply Hw; rewrite H; exact I).
    apply guarded_write; auto. apply guarded_read; auto. apply guarded_read; auto.
  - rewrite H0. cbn [map]. rewrite C3. assert (E : wr s = Some t) by (apply Hw; rewrite H; exact I). rewrite E in *.
    apply guarded_unlock. apply guarded_read; auto. apply guarded_read; auto.
  - (* bump *) cbn [map]. rewrite C2. assert (E : wr s = Some t) by (apply Hw; rewrite H; exact I).
    apply guarded_write; auto. apply guarded_read; auto.
  - (* Unlock *) rewrite C2. assert (E : wr s = Some t) by (apply Hw; rewrite H; exact I). rewrite E in *.
    apply guarded_quiet; auto using q_labv; [discriminate|]. apply guarded_unlock; auto.
  - (* RLock *) cbn [map]. rewrite H0 in *. apply guarded_rlock; auto.
  - (* bounds *) rewrite H0. destruct (Z.ltb_spec size 0); [lia|]. cbn [map]. rewrite C2. assert (E : rd s t = true) by (apply Hr; rewrite H; exact I).
    apply guarded_read; auto. apply guarded_read; auto.
  - assert (E : rd s t = true) by (apply Hr; rewrite H; exact I). assert (X : match take_bounds (cring s) with
      | Ok (size, _) => if (size <? 0)%Z then [@ARUnlk place unit (label V) tt] else [] | Panic => [ARUnlk tt] end = [ARUnlk tt]).
    { destruct H0 as [H0|(sz & st & H0 & Hlt)]; rewrite H0; auto. destruct (Z.ltb_spec sz 0); auto; lia. }
    rewrite X. cbn [map]. rewrite C3. apply guarded_runlock. apply guarded_read; auto. apply guarded_read; auto.
  - (* read *) assert (E : rd s t = true) by (apply Hr; rewrite H; exact I). destruct (Z.ltb_spec i size); [|lia]. rewrite H1. cbn [map]. rewrite C2.
    apply guarded_read; auto. apply guarded_read; auto.
  - assert (E : rd s t = true) by (apply Hr; rewrite H; exact I). destruct (Z.ltb_spec i size); [|lia]. rewrite H1. cbn [map]. rewrite C2.
    apply guarded_runlock; auto. apply guarded_read; auto.
  - destruct (Z.ltb_spec i size); [lia|]. cbn [map]. now rewrite app_nil_r.
  - (* RUnlock *) rewrite C2. apply guarded_quiet; auto using q_labv; [discriminate|]. apply guarded_runlock; auto.
Qed.

Record J (tr : list (label V)) (T : list ev) (s : cstate V) : Prop := {
  j_held : held s;
  j_lk : lk T (wr s) (rd s);
  j_call : forall t v, holds (pcs s t) v -> exists i, nth_error T i = Some (call t v);
  j_add : forall v, In v (added tr) -> exists i t, nth_error T i = Some (call t v) /\ past T (AUnlk tt) i;
}.
Lemma J_all : forall n tr T s, runs n tr T s -> J tr T s.
Proof.
  intros n. apply (traced_ind_inv (cinit nilv n) (@cstep V) ring_acts J).
  - intros s (_ & Hw & Hr & Hp). constructor.
    + split; intros t; rewrite Hp; intros [].
    + apply guarded_nil. rewrite Hw. discriminate.
    + intros t v. rewrite Hp. intros [].
    + intros v [].
  - intros tr T s l s' _ [H1 H2 H3 H4] St.
    assert (K3 : forall t v, holds (pcs s' t) v -> exists i, nth_error (T ++ ring_acts s l) i = Some (call t v)).
    { assert (Old : forall t v, holds (pcs s t) v -> exists i, nth_error (T ++ ring_acts s l) i = Some (call t v)).
      { intros t v Hh. destruct (H3 t v Hh) as (i & Hi). exists i. now apply nth_app_l. }
      intros t v. inversion St; subst; unfold go; cbn [pcs]; unfold upd; destruct (Nat.eqb_spec t0 t) as [Ee|Ee]; auto; subst t; cbn; try tauto;
        intros Hh; try (apply Old; rewrite H; exact Hh).
      subst v. exists (length T). apply nth_last. }
    constructor; auto.
    + eapply held_step; eauto. apply H2.
    + apply lk_step; auto.
    + intros v. rewrite added_app, in_app_iff. intros [Hv|Hv].
      * destruct (H4 v Hv) as (i & t & Hi & Hp). exists i, t. split; [now apply nth_app_l|now apply past_app].
      * inversion St; subst; cbn in Hv; try contradiction. destruct Hv as [->|[]].
        destruct (H3 t v) as (i & Hi); [rewrite H; reflexivity|]. exists i, t. split; [now apply nth_app_l|].
        cbn [ring_acts]. change [(t, AUnlk tt); (t, ALab (LAdd t v))] with ([(t, @AUnlk place unit (label V) tt)] ++ [(t, ALab (LAdd t v))]).
        rewrite app_assoc. apply past_app, seen_past. eapply seen_self; eauto.
Qed.

(** However the calls of Add and Take on one Ring interleave, no two accesses to its memory race. *)
Theorem C103_ring_race_free : forall n tr T s, runs n tr T s -> race_free T.
Proof. intros n tr T s H. apply J_all in H. apply H. Qed.

Lemma label_run : forall n tr T s j t xs, runs n tr T s -> nth_error T j = Some (t, ALab (LTake t xs)) ->
  exists tr1 T1 s1 s2 tr2 T2, runs n tr1 T1 s1 /\ cstep s1 (LTake t xs) s2 /\ tr = tr1 ++ LTake t xs :: tr2 /\
    T = T1 ++ (t, ARUnlk tt) :: (t, ALab (LTake t xs)) :: T2 /\ j = S (length T1).
Proof.
  intros n tr T s j t xs H. revert j. induction H as [|tr T s l s' H IH St]; intros j Hj; [destruct j; discriminate|].
  destruct (Nat.lt_ge_cases j (length T)) as [Hl|Hl].
  - rewrite nth_error_app1 in Hj by auto. destruct (IH j Hj) as (tr1 & T1 & s1 & s2 & tr2 & T2 & A & B & C & D & E).
    exists tr1, T1, s1, s2, (tr2 ++ [l]), (T2 ++ ring_acts s l). subst. rewrite <- !app_assoc. cbn. auto.
  - rewrite nth_error_app2 in Hj by auto.
    assert (Hl' : l = LTake t xs /\ j - length T = 1).
    { destruct l as [u o|u|u v|u ys]; cbn in Hj.
      - destruct (j - length T) as [|[|?]]; cbn in Hj; discriminate.
      - exfalso. apply nth_error_In in Hj. apply in_map_iff in Hj. destruct Hj as (a & Ha & Hin). inversion Ha; subst.
        unfold ring_tau in Hin. repeat match type of Hin with context [match ?d with _ => _ end] => destruct d end; cbn in Hin;
          repeat (destruct Hin as [Hin|Hin]; try discriminate); contradiction.
      - destruct (j - length T) as [|[|[|?]]]; cbn in Hj; discriminate.
      - destruct (j - length T) as [|[|[|?]]]; cbn in Hj; try discriminate. inversion Hj; auto. }
    destruct Hl' as [-> Hj']. exists tr, T, s, s', [], []. repeat split; auto. lia.
Qed.
(** Every value a Take returns was given to a call of Add that happens before the return of that Take: what the
    adding goroutine did before, such as filling in what the value points to, is visible to the taker.
    (Fewer than 2^63 Adds: after that Take panics, see C33.) *)
Theorem C103_ring_publishes : forall n tr T s j t xs v, runs n tr T s -> (zlen (added tr) < 2^63)%Z ->
  nth_error T j = Some (t, ALab (LTake t xs)) -> In v xs ->
  exists i u, nth_error T i = Some (u, ALab (LCall u (Some v))) /\ hb T i j.
Proof.
  intros n tr T s j t xs v H Hb Hj Hv.
  destruct (label_run _ _ _ _ _ _ _ H Hj) as (tr1 & T1 & s1 & s2 & tr2 & T2 & H1 & St & -> & -> & ->).
  assert (Hb1 : (zlen (added tr1) < 2^63)%Z).
  { rewrite added_app, zlen_app in Hb. pose proof (zlen_nonneg (added (LTake t xs :: tr2))). lia. }
  assert (Hx : xs = lastn (Z.to_nat n) (added tr1)).
  { eapply C34_take with (tr2 := []); [|exact Hb1]. eapply exec_snoc; [eapply traced_exec; eauto|eauto]. }
  destruct (J_all _ _ _ _ H1) as [[Hw Hr] Hl _ Ha].
  destruct (Ha v) as (i & u & Hi & Hp).
  { subst xs. unfold lastn in Hv. rewrite <- (firstn_skipn (length (added tr1) - Z.to_nat n) (added tr1)). apply in_app_iff. now right. }
  exists i, u. split; [now apply nth_app_l|].
  assert (Hs : seen T1 i t).
  { eapply g_un; [exact Hl|exact Hp|]. right. apply Hr. inversion St; subst. match goal with E : pcs s1 t = _ |- _ => rewrite E end. exact I. }
  change (T1 ++ (t, ARUnlk tt) :: (t, ALab (LTake t xs)) :: T2) with (T1 ++ [(t, ARUnlk tt)] ++ [(t, ALab (LTake t xs))] ++ T2).
  rewrite !app_assoc. apply hb_app. replace (S (length T1)) with (length (T1 ++ [(t, @ARUnlk place unit (label V) tt)])) by (rewrite app_length; cbn; lia).
  apply seen_next, seen_app, Hs.
Qed.
End P.
Print Assumptions C103_ring_race_free.
Print Assumptions C103_ring_publishes.

(** A run: goroutine 0 adds 7 to a ring of two, goroutine 1 takes it; the hypotheses of the theorems are met. *)
Example C103_ring_ex : exists tr T s, traced (cinit 0%Z 2) (@cstep Z) ring_acts tr T s /\ (zlen (added tr) < 2^63)%Z /\
  nth_error T 16 = Some (1, ALab (LTake 1 [7%Z])) /\ nth_error T 0 = Some (0, ALab (LCall 0 (Some 7%Z))) /\
  nth_error T 4 = Some (0, AWr (PSlot 0)) /\ nth_error T 14 = Some (1, ARd (PSlot 0)).
Proof.
  assert (H : traced (cinit 0%Z 2) (@cstep Z) ring_acts [] [] (CS (Ring [0%Z; 0%Z] 0) None (fun _ => false) (fun _ => Idle))) by (apply tr_nil; repeat split).
  Ltac go H c := let H' := fresh in let G := fresh in
    (match type of H with traced _ _ _ _ _ ?s => eassert (G : cstep s _ _) by c end); pose proof (tr_snoc _ _ _ _ _ _ _ _ H G) as H'; clear H G; rename H' into H; cbn [cring wr rd pcs XRingModel.go] in H.
  go H ltac:(eapply (CCallAdd Z) with (t := 0) (v := 7%Z); reflexivity).
  go H ltac:(eapply (CLock Z) with (t := 0); reflexivity).
  go H ltac:(eapply (CWrite Z) with (t := 0); reflexivity).
  go H ltac:(eapply (CBump Z) with (t := 0); reflexivity).
  go H ltac:(eapply (CUnlock Z) with (t := 0); reflexivity).
  go H ltac:(eapply (CCallTake Z) with (t := 1); reflexivity).
  go H ltac:(eapply (CRLock Z) with (t := 1); reflexivity).
  go H ltac:(eapply (CBounds Z) with (t := 1); [reflexivity|reflexivity|cbn; lia]).
  go H ltac:(eapply (CRead Z) with (t := 1); [reflexivity|cbn; lia|reflexivity]).
  go H ltac:(eapply (CReadDone Z) with (t := 1); [reflexivity|cbn; lia]).
  go H ltac:(eapply (CRUnlock Z) with (t := 1); reflexivity).
  eexists _, _, _. split; [exact H|]. repeat split; reflexivity.
Qed.
