(** * Proofs for C96 *)
From Coq Require Import ZArith List Bool Lia.
From Verif Require Import GoBase Trans XRingModel XRingSpec XRingProps XOnceLiveProofs XRingLiveSpec.
Import ListNotations.
Open Scope nat_scope.

Section P.
Variable V : Type.
Variable nilv : V.
Notation cstate := (cstate V).
Notation exec' n := (exec (cinit nilv n) (@cstep V)).

(** The lock is held by exactly the goroutines that are inside it, whatever the ring holds. *)
Definition locked (n : Z) (s : cstate) : Prop :=
  (forall t, wcrit (pcs s t) <-> wr s = Some t) /\
  (forall t, rcrit (pcs s t) <-> rd s t = true) /\
  (forall t u, wr s = Some t -> rd s u = false) /\
  (1 <= n)%Z /\ zlen (elems (cring s)) = n /\
  (forall t, match pcs s t with TLoop size _ i _ => (0 <= i <= size /\ size <= n)%Z | _ => True end).

Lemma add_write_len : forall (r : ring V) v r', add_write r v = Ok r' -> zlen (elems r') = zlen (elems r).
Proof.
  intros r v r'. unfold add_write, gorem, store. destruct (_ =? 0)%Z; cbn; [discriminate|].
  destruct (_ && _); cbn; [|discriminate]. intros E. inversion E; subst. cbn. unfold zlen. now rewrite list_set_length.
Qed.
Lemma take_bounds_size : forall (r : ring V) size start, take_bounds r = Ok (size, start) -> (size <= zlen (elems r))%Z.
Proof.
  intros r size start. unfold take_bounds, gorem. rewrite Z.gtb_ltb. destruct (Z.ltb_spec (zlen (elems r)) (index r)).
  - destruct (_ =? 0)%Z; cbn; intros E; inversion E; subst. lia.
  - intros E; inversion E; subst. lia.
Qed.

Ltac cases u t := destruct (Nat.eq_dec u t) as [->|?]; [rewrite ?upd_same in *|rewrite ?upd_other in * by congruence].

Lemma locked_step : forall n s l s', locked n s -> cstep s l s' -> locked n s'.
Proof.
  intros n s l s' (W & R & X & N1 & EL & SZ) St.
  assert (RN : forall t, rcrit (pcs s t) -> wr s = None).
  { intros t H. apply R in H. destruct (wr s) as [w|] eqn:E; auto. rewrite (X w t eq_refl) in H. discriminate. }
  assert (NW : forall t, ~ wcrit (pcs s t) -> wr s <> Some t) by (intros t H E; apply H; now apply W).
  assert (NR : forall t, ~ rcrit (pcs s t) -> rd s t = false).
  { intros t H. destruct (rd s t) eqn:E; auto. exfalso. apply H. now apply R. }
  inversion St; subst; unfold go, locked; cbn [cring wr rd pcs];
  (split; [|split; [|split; [|split; [auto|split]]]]).
  all: try reflexivity.
  all: try (intros u; cases u t; [|apply SZ]; auto; fail).
  all: try (intros u; cases u t; cbn; [split; [tauto|]|apply W]; intros E; apply W in E; rewrite H in E; exact E).
  all: try (intros u; cases u t; cbn; [split; [tauto|]|apply R]; intros E; apply R in E; rewrite H in E; exact E).
  all: try exact X.
  all: try (intros u; cases u t; cbn; [|apply W]; (split; [|tauto]); intros _; apply W; rewrite H; exact I).
  all: try (intros u; cases u t; cbn; [|apply R]; (split; [|tauto]); intros _; apply R; rewrite H; exact I).
  - (* CLock W *) intros u. cases u t; cbn; [tauto|]. split; [|congruence]. intros E. apply W in E. congruence.
  - intros u w _. auto.
  - (* write *) exact (add_write_len _ _ _ H0).
  - (* write panic *) assert (E : wr s = Some t) by (apply W; rewrite H; exact I).
    intros u. cases u t; cbn; [split; [tauto|discriminate]|]. split; [|discriminate]. intros E2. apply W in E2. congruence.
  - discriminate.
  - assert (E : wr s = Some t) by (apply W; rewrite H; exact I).
    intros u. cases u t; cbn; [split; [tauto|discriminate]|]. split; [|discriminate]. intros E2. apply W in E2. congruence.
  - discriminate.
  - (* rlock *) intros u. cases u t; cbn; [tauto|apply R].
  - rewrite H0. discriminate.
  - (* bounds *) intros u. cases u t; [|apply SZ]. pose proof (take_bounds_size _ _ _ H0). lia.
  - (* bounds panic *) intros u. cases u t; cbn; [split; [tauto|discriminate]|apply R].
  - intros w u Hw. rewrite (RN t) in Hw by (rewrite H; exact I). discriminate.
  - (* read *) intros u. pose proof (SZ t) as B. rewrite H in B. cases u t; [lia|apply SZ].
  - intros u. cases u t; cbn; [split; [tauto|discriminate]|apply R].
  - intros w u Hw. rewrite (RN t) in Hw by (rewrite H; exact I). discriminate.
  - intros u. cases u t; cbn; [split; [tauto|discriminate]|apply R].
  - intros w u Hw. rewrite (RN t) in Hw by (rewrite H; exact I). discriminate.
Qed.

Lemma locked_init : forall n s, cinit nilv n s -> locked n s.
Proof.
  intros n s (A & B & C & D). unfold NewRing in A. destruct (Z.ltb_spec n 1); [discriminate|]. inversion A as [E]. clear A.
  unfold locked. rewrite B. split; [|split; [|split; [|split; [auto|split]]]].
  - intros t. rewrite D. cbn. split; [tauto|discriminate].
  - intros t. rewrite D, C. cbn. split; [tauto|discriminate].
  - discriminate.
  - rewrite <- E. cbn. unfold zlen. rewrite repeat_length. lia.
  - intros t. now rewrite D.
Qed.
Lemma locked_exec : forall n tr s, exec' n tr s -> locked n s.
Proof. intros n. apply (exec_ind_inv _ _ (fun _ s => locked n s)); [apply locked_init|intros; eapply locked_step; eauto]. Qed.

(** Steps left inside the call. *)
Definition fuel (n : nat) (p : pc V) : nat :=
  match p with
  | Idle | Dead => 0
  | AWait _ => 4 | AWrite _ => 3 | ABump _ => 2 | AUnlock _ => 1
  | TWait => n + 4 | TBounds => n + 3
  | TLoop size _ i _ => Z.to_nat (size - i) + 2
  | TUnlock _ => 1
  end.

Lemma step_fuel : forall n s l s', locked n s -> cstep s l s' ->
  (forall u, u <> who l -> pcs s' u = pcs s u) /\
  (begins l = true /\ pcs s (who l) = Idle /\ fuel (Z.to_nat n) (pcs s' (who l)) <= Z.to_nat n + 4 \/
   begins l = false /\ inside (pcs s (who l)) /\ S (fuel (Z.to_nat n) (pcs s' (who l))) <= fuel (Z.to_nat n) (pcs s (who l))).
Proof.
  intros n s l s' (_ & _ & _ & N1 & EL & SZ) St.
  inversion St; subst; cbn [who begins]; unfold go; cbn [pcs]; rewrite ?upd_same; rewrite ?H;
    (split; [intros u Hu; apply upd_other; congruence|]);
    try (left; repeat split; auto; cbn; lia; fail);
    right; (split; [reflexivity|split; [split; discriminate|]]); cbn [fuel]; try lia.
  pose proof (take_bounds_size _ _ _ H0). lia.
Qed.

Lemma ncalls_snoc : forall (tr : list (label V)) l, ncalls (tr ++ [l]) = ncalls tr + (if begins l then 1 else 0).
Proof. intros. unfold ncalls. rewrite filter_app, app_length. cbn. destruct (begins l); cbn; lia. Qed.

Lemma fuel_bound : forall n tr s, exec' n tr s ->
  exists l, NoDup l /\ (forall u, inside (pcs s u) -> In u l) /\
    length tr + tot (fun u => fuel (Z.to_nat n) (pcs s u)) l <= (Z.to_nat n + 5) * ncalls tr.
Proof.
  intros n tr s E.
  apply (exec_ind_inv _ _ (fun tr s => locked n s /\ exists l, NoDup l /\ (forall u, inside (pcs s u) -> In u l) /\
    length tr + tot (fun u => fuel (Z.to_nat n) (pcs s u)) l <= (Z.to_nat n + 5) * ncalls tr)) in E; [apply E| |].
  - clear. intros s H. split; [now apply locked_init|]. destruct H as (_ & _ & _ & D).
    exists []. split; [constructor|]. split; [|cbn; lia]. intros u [Hu _]. congruence.
  - clear. intros tr s l s' _ (L & ls & ND & In1 & Bd) St. split; [eapply locked_step; eauto|].
    destruct (step_fuel _ _ _ _ L St) as (O & [(B1 & B2 & B3)|(B1 & B2 & B3)]); rewrite ncalls_snoc, B1, app_length; cbn [length].
    + assert (E : exists ls', NoDup ls' /\ (forall u, inside (pcs s u) -> In u ls') /\ In (who l) ls' /\
        tot (fun u => fuel (Z.to_nat n) (pcs s u)) ls' = tot (fun u => fuel (Z.to_nat n) (pcs s u)) ls).
      { destruct (in_dec Nat.eq_dec (who l) ls) as [I|I]; [exists ls; auto|].
        exists (who l :: ls). split; [now constructor|]. split; [intros u Hu; right; auto|]. split; [now left|]. cbn. now rewrite B2. }
      destruct E as (ls' & ND' & In' & Iw & Et). exists ls'. split; auto. split.
      { intros u Hu. destruct (Nat.eq_dec u (who l)) as [->|Nu]; auto. rewrite (O u Nu) in Hu. auto. }
      assert (T2 : tot (fun u => fuel (Z.to_nat n) (pcs s' u)) ls' <= tot (fun u => fuel (Z.to_nat n) (pcs s u)) ls' + (Z.to_nat n + 4)).
      { apply tot_inc with (t := who l); auto.
        - intros u Hu. now rewrite (O u Hu).
        - rewrite B2. cbn [fuel]. lia. }
      nia.
    + exists ls. split; auto. split.
      { intros u Hu. destruct (Nat.eq_dec u (who l)) as [->|Nu]; auto. rewrite (O u Nu) in Hu. auto. }
      assert (T : S (tot (fun u => fuel (Z.to_nat n) (pcs s' u)) ls) <= tot (fun u => fuel (Z.to_nat n) (pcs s u)) ls).
      { apply tot_dec with (t := who l); auto. intros u Hu. rewrite (O u Hu). lia. }
      lia.
Qed.

Lemma works_move : forall (s : cstate) t, add_works (pcs s t) \/ take_works (pcs s t) ->
  exists l s', cstep s l s' /\ who l = t /\ begins l = false.
Proof.
  intros s t [[_ [(v & E)|[(v & E)|(v & E)]]]|[_ [E|[(a & b & c & d & E)|(xs & E)]]]].
  - destruct (add_write (cring s) v) as [r|] eqn:A.
    + exists (LTau t). eexists. split; [eapply CWrite; eauto|auto].
    + exists (LTau t). eexists. split; [eapply CWritePanic; eauto|auto].
  - exists (LTau t). eexists. split; [eapply CBump; eauto|auto].
  - exists (LAdd t v). eexists. split; [eapply CUnlock; eauto|auto].
  - destruct (take_bounds (cring s)) as [[size start]|] eqn:A.
    + destruct (Z_lt_le_dec size 0).
      * exists (LTau t). eexists. split; [eapply CBoundsPanic; eauto|auto].
      * exists (LTau t). eexists. split; [eapply CBounds; eauto|auto].
    + exists (LTau t). eexists. split; [eapply CBoundsPanic; eauto|auto].
  - destruct (Z_lt_le_dec c a).
    + destruct (take_read (cring s) b c) eqn:A.
      * exists (LTau t). eexists. split; [eapply CRead; eauto|auto].
      * exists (LTau t). eexists. split; [eapply CReadPanic; eauto|auto].
    + exists (LTau t). eexists. split; [eapply CReadDone; eauto|auto].
  - exists (LTake t xs). eexists. split; [eapply CRUnlock; eauto|auto].
Qed.

Lemma works_or_waits : forall p : pc V, inside p ->
  add_works p \/ take_works p \/ add_waits p \/ take_waits p.
Proof.
  intros p [A B]. unfold add_works, take_works, add_waits, take_waits, inside.
  destruct p; try congruence;
    first [left; split; [split; discriminate|eauto; fail]
          |right; left; split; [split; discriminate|eauto 10; fail]
          |right; right; eauto; fail].
Qed.

Lemma wcrit_works : forall p : pc V, wcrit p <-> add_works p.
Proof.
  intros p. unfold add_works, inside. split.
  - destruct p; cbn; try tauto; intros _; (split; [split; discriminate|eauto]).
  - intros [_ [(v & ->)|[(v & ->)|(v & ->)]]]; exact I.
Qed.
Lemma rcrit_works : forall p : pc V, rcrit p <-> take_works p.
Proof.
  intros p. unfold take_works, inside. split.
  - destruct p; cbn; try tauto; intros _; (split; [split; discriminate|eauto 10]).
  - intros [_ [->|[(a & b & c & d & ->)|(xs & ->)]]]; exact I.
Qed.

(** Some goroutine of the list works, or none of all does. *)
Lemma some_works : forall (s : cstate) l, (forall u, inside (pcs s u) -> In u l) ->
  (exists u, add_works (pcs s u) \/ take_works (pcs s u)) \/ (forall u, ~ add_works (pcs s u) /\ ~ take_works (pcs s u)).
Proof.
  intros s l H.
  assert (G : forall l, (exists u, add_works (pcs s u) \/ take_works (pcs s u)) \/
    (forall u, In u l -> ~ add_works (pcs s u) /\ ~ take_works (pcs s u))).
  { clear. induction l as [|x l [IH|IH]]; [right; intros u []|auto|].
    assert (D : wcrit (pcs s x) \/ ~ wcrit (pcs s x)) by (destruct (pcs s x); cbn; auto).
    assert (D' : rcrit (pcs s x) \/ ~ rcrit (pcs s x)) by (destruct (pcs s x); cbn; auto).
    rewrite wcrit_works in D. rewrite rcrit_works in D'.
    destruct D; [left; eauto|]. destruct D'; [left; eauto|]. right. intros u [->|Hu]; auto. }
  destruct (G l) as [|G']; auto. right. intros u. split.
  - intros A. destruct (G' u) as [X _]; auto. apply H. apply A.
  - intros A. destruct (G' u) as [_ X]; auto. apply H. apply A.
Qed.
Lemma some_add_waits : forall (s : cstate) l, (forall u, inside (pcs s u) -> In u l) ->
  (exists u, add_waits (pcs s u)) \/ (forall u, ~ add_waits (pcs s u)).
Proof.
  intros s l H.
  assert (G : forall l, (exists u, add_waits (pcs s u)) \/ (forall u, In u l -> ~ add_waits (pcs s u))).
  { clear. induction l as [|x l [IH|IH]]; [right; intros u []|auto|].
    destruct (pcs s x) eqn:E; try (right; intros u [<-|Hu]; [rewrite E; intros (? & Q); discriminate|auto]; fail).
    left. exists x. rewrite E. eexists; reflexivity. }
  destruct (G l) as [|G']; auto. right. intros u A. apply (G' u); auto. apply H. destruct A as (v & ->). split; discriminate.
Qed.

Lemma free_lock : forall n s, locked n s -> (forall u, ~ add_works (pcs s u) /\ ~ take_works (pcs s u)) ->
  wr s = None /\ forall u, rd s u = false.
Proof.
  intros n s (W & R & _) H. split.
  - destruct (wr s) as [w|] eqn:E; auto. exfalso. destruct (H w) as [Q _]. apply Q. apply wcrit_works. now apply W.
  - intros u. destruct (rd s u) eqn:E; auto. exfalso. destruct (H u) as [_ Q]. apply Q. apply rcrit_works. now apply R.
Qed.
End P.
