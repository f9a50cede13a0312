(** * Proofs for C94 *)
From Coq Require Import ZArith List Bool Lia.
From Verif Require Import GoBase Trans XOnceModel XOnceSpec XOnceProps XOnceLiveSpec.
Import ListNotations.
Open Scope nat_scope.

(** ** Sums over the goroutines that ever called *)
Fixpoint tot (f : nat -> nat) (l : list nat) : nat := match l with [] => 0 | x :: r => f x + tot f r end.

Lemma tot_le : forall f g l, (forall u, g u <= f u) -> tot g l <= tot f l.
Proof. induction l as [|x l IH]; intros H; cbn; auto. specialize (H x) as Hx. specialize (IH H). lia. Qed.
Lemma tot_ext : forall f g l, (forall u, In u l -> g u = f u) -> tot g l = tot f l.
Proof. induction l as [|x l IH]; intros H; cbn; auto. rewrite (H x) by now left. rewrite IH; auto. intros u Hu. apply H. now right. Qed.
Lemma tot_dec : forall f g t l, In t l -> (forall u, u <> t -> g u <= f u) -> S (g t) <= f t -> S (tot g l) <= tot f l.
Proof.
  induction l as [|x l IH]; intros Hin H Ht; [destruct Hin|]. cbn.
  assert (L : tot g l <= tot f l).
  { apply tot_le. intros u. destruct (Nat.eq_dec u t) as [->|N]; [lia|auto]. }
  destruct (Nat.eq_dec x t) as [->|N]; [lia|]. specialize (H x N) as Hx. destruct Hin as [E|Hin]; [congruence|].
  specialize (IH Hin H Ht). lia.
Qed.
Lemma tot_inc : forall f g t k l, NoDup l -> (forall u, u <> t -> g u = f u) -> g t <= f t + k -> tot g l <= tot f l + k.
Proof.
  induction l as [|x l IH]; intros ND H Ht; cbn; [lia|]. inversion ND as [|? ? N1 N2]; subst.
  destruct (Nat.eq_dec x t) as [->|N].
  - rewrite (tot_ext f g l); [lia|]. intros u Hu. apply H. intros ->. auto.
  - rewrite (H x N). specialize (IH N2 H Ht). lia.
Qed.

(** ** Value *)
(** How many more moves a goroutine can make before it is outside again. *)
Definition isnil (y : tword) : bool := match y with TyNil => true | _ => false end.
Definition vfuel (y : tword) (p : vpc) : nat :=
  match p with
  | VIdle | VDead => 0
  | VEnter _ => 6
  | VLoop _ => if isnil y then 5 else 2
  | VCas _ => 4
  | VStoreData _ => 3
  | VStoreType _ => 2
  | VRet _ => 1
  | LBegin => 3 | LData _ => 2 | LRet _ => 1
  end.

Lemma vfuel_mono : forall y y' p, (isnil y' = true -> isnil y = true) -> vfuel y' p <= vfuel y p.
Proof. intros y y' p H. destruct p; cbn; auto. destruct (isnil y'), (isnil y); auto; try lia. Qed.

(** One step: a call gives its goroutine fuel 6; a wait changes nothing; any other step burns fuel. *)
Lemma vstep_fuel : forall s l s', vstep s l s' ->
  (forall u, u <> vwho l -> vpcs s' u = vpcs s u) /\ (isnil (typ s') = true -> isnil (typ s) = true) /\
  (vbegins l = true /\ vpcs s (vwho l) = VIdle /\ vfuel (typ s') (vpcs s' (vwho l)) <= 6 \/
   vbegins l = false /\ vinside (vpcs s (vwho l)) /\
    (vpcs s' (vwho l) = vpcs s (vwho l) \/ S (vfuel (typ s') (vpcs s' (vwho l))) <= vfuel (typ s) (vpcs s (vwho l)))).
Proof.
  intros s l s' St. inversion St; subst; cbn [typ dat vpcs vwho vbegins isnil]; rewrite ?upd_same; rewrite ?H;
    (split; [intros u Hu; apply upd_other; congruence|]); (split; [auto; try discriminate|]);
    try (left; repeat split; auto; cbn; lia; fail);
    right; (split; [reflexivity|split; [split; discriminate|]]); try (left; reflexivity);
    right; cbn [vfuel]; try lia; cbn [isnil]; try lia.
  - destruct (isnil y); lia.
  - destruct y; cbn; try lia. congruence.
Qed.

Lemma vrun_exec : forall tr n s, vrun tr n s -> exec vinit vstep tr s.
Proof. induction 1; [now apply exec_nil|eapply exec_snoc; eauto|eapply exec_snoc; eauto]. Qed.

Lemma vcalls_snoc : forall tr l, vcalls (tr ++ [l]) = vcalls tr + (if vbegins l then 1 else 0).
Proof. intros. unfold vcalls. rewrite filter_app, app_length. cbn. destruct (vbegins l); cbn; lia. Qed.

Lemma vrun_bound : forall tr n s, vrun tr n s ->
  exists l, NoDup l /\ (forall u, vinside (vpcs s u) -> In u l) /\
    n + tot (fun u => vfuel (typ s) (vpcs s u)) l <= 7 * vcalls tr.
Proof.
  induction 1 as [s [A B]|tr n s l s' R IH St N|tr n s l s' R IH St N].
  - exists []. split; [constructor|]. split; [|cbn; lia]. intros u [Hu _]. congruence.
  - destruct IH as (ls & ND & In1 & Bd). destruct (vstep_fuel _ _ _ St) as (O & Mo & [(B1 & B2 & B3)|(B1 & B2 & B3)]); rewrite vcalls_snoc, B1.
    + assert (E : exists ls', NoDup ls' /\ (forall u, vinside (vpcs s u) -> In u ls') /\ In (vwho l) ls' /\
        tot (fun u => vfuel (typ s) (vpcs s u)) ls' = tot (fun u => vfuel (typ s) (vpcs s u)) ls).
      { destruct (in_dec Nat.eq_dec (vwho l) ls) as [I|I]; [exists ls; auto|].
        exists (vwho l :: ls). split; [now constructor|]. split; [intros u Hu; right; auto|]. split; [now left|]. cbn. now rewrite B2. }
      destruct E as (ls' & ND' & In' & Iw & Et). exists ls'. split; auto. split.
      { intros u Hu. destruct (Nat.eq_dec u (vwho l)) as [->|Nu]; auto. rewrite (O u Nu) in Hu. auto. }
      assert (T1 : tot (fun u => vfuel (typ s') (vpcs s' u)) ls' <= tot (fun u => vfuel (typ s) (vpcs s' u)) ls').
      { apply tot_le. intros u. now apply vfuel_mono. }
      assert (T2 : tot (fun u => vfuel (typ s) (vpcs s' u)) ls' <= tot (fun u => vfuel (typ s) (vpcs s u)) ls' + 6).
      { apply tot_inc with (t := vwho l); auto.
        - intros u Hu. now rewrite (O u Hu).
        - destruct l; try discriminate; inversion St; subst; cbn; rewrite upd_same; cbn; lia. }
      lia.
    + exists ls. split; auto. split.
      { intros u Hu. destruct (Nat.eq_dec u (vwho l)) as [->|Nu]; auto. rewrite (O u Nu) in Hu. auto. }
      destruct B3 as [B3|B3]; [congruence|].
      assert (T : S (tot (fun u => vfuel (typ s') (vpcs s' u)) ls) <= tot (fun u => vfuel (typ s) (vpcs s u)) ls).
      { apply tot_dec with (t := vwho l); auto. intros u Hu. rewrite (O u Hu). now apply vfuel_mono. }
      lia.
  - destruct IH as (ls & ND & In1 & Bd). destruct (vstep_fuel _ _ _ St) as (O & Mo & _). rewrite vcalls_snoc. exists ls. split; auto.
    assert (Eq : forall u, vpcs s' u = vpcs s u).
    { intros u. destruct (Nat.eq_dec u (vwho l)) as [->|Nu]; auto. }
    split; [intros u Hu; rewrite Eq in Hu; auto|].
    assert (T : tot (fun u => vfuel (typ s') (vpcs s' u)) ls <= tot (fun u => vfuel (typ s) (vpcs s u)) ls).
    { apply tot_le. intros u. rewrite Eq. now apply vfuel_mono. }
    lia.
Qed.

(** Every goroutine inside a call can take a step; it fails to move only while waiting for
    the first writer. *)
Lemma v_own_step : forall y d p t, vinside (p t) -> exists l s', vstep (VS y d p) l s' /\ vwho l = t /\ vbegins l = false /\
  (vpcs s' t = p t -> y = TyProg /\ exists v, p t = VLoop v).
Proof.
  intros y d p t [I1 I2]. destruct (p t) eqn:E; try congruence.
  - destruct v as [v|].
    + exists (VTau t), (VS y d (upd p t (VLoop v))). split; [now apply VSEnter|]. repeat split; auto; cbn in H; rewrite upd_same in H; discriminate.
    + exists (VPanic t), (VS y d (upd p t VDead)). split; [now apply VSNil|]. repeat split; auto; cbn in H; rewrite upd_same in H; discriminate.
  - destruct y as [| |n].
    + exists (VTau t), (VS TyNil d (upd p t (VCas v))). split; [now apply VSLoadNil|]. repeat split; auto; cbn in H; rewrite upd_same in H; discriminate.
    + exists (VTau t), (VS TyProg d (upd p t (VLoop v))). split; [now apply VSLoadProg|]. repeat split; eauto.
    + destruct (Nat.eq_dec n (vty v)) as [->|N].
      * exists (VTau t), (VS (Ty (vty v)) d (upd p t (VRet false))). split; [now apply VSLoadSame|]. repeat split; auto; cbn in H; rewrite upd_same in H; discriminate.
      * exists (VPanic t), (VS (Ty n) d (upd p t VDead)). split; [now apply VSLoadOther with v|]. repeat split; auto; cbn in H; rewrite upd_same in H; discriminate.
  - destruct y as [| |n].
    + exists (VTau t), (VS TyProg d (upd p t (VStoreData v))). split; [now apply VSCasOk|]. repeat split; auto; cbn in H; rewrite upd_same in H; discriminate.
    + exists (VTau t), (VS TyProg d (upd p t (VLoop v))). split; [now apply VSCasFail|]. repeat split; auto; cbn in H; rewrite upd_same in H; discriminate.
    + exists (VTau t), (VS (Ty n) d (upd p t (VLoop v))). split; [now apply VSCasFail|]. repeat split; auto; cbn in H; rewrite upd_same in H; discriminate.
  - exists (VTau t), (VS y (vdata v) (upd p t (VStoreType v))). split; [now apply VSData|]. repeat split; auto; cbn in H; rewrite upd_same in H; discriminate.
  - exists (VCommit t v), (VS (Ty (vty v)) d (upd p t (VRet true))). split; [now apply VSType|]. repeat split; auto; cbn in H; rewrite upd_same in H; discriminate.
  - exists (VReturn t b), (VS y d (upd p t VIdle)). split; [now apply VSRet|]. repeat split; auto; cbn in H; rewrite upd_same in H; discriminate.
  - destruct y as [| |n].
    + exists (VTau t), (VS TyNil d (upd p t (LRet None))). split; [now apply VSLNil|]. repeat split; auto; cbn in H; rewrite upd_same in H; discriminate.
    + exists (VTau t), (VS TyProg d (upd p t (LRet None))). split; [now apply VSLNil|]. repeat split; auto; cbn in H; rewrite upd_same in H; discriminate.
    + exists (VTau t), (VS (Ty n) d (upd p t (LData n))). split; [now apply VSLTy|]. repeat split; auto; cbn in H; rewrite upd_same in H; discriminate.
  - exists (VTau t), (VS y d (upd p t (LRet (Some (GV n d))))). split; [now apply VSLData|]. repeat split; auto; cbn in H; rewrite upd_same in H; discriminate.
  - exists (VLoadRet t r), (VS y d (upd p t VIdle)). split; [now apply VSLRet|]. repeat split; auto; cbn in H; rewrite upd_same in H; discriminate.
Qed.

(** While the first store is in progress, its writer is at one of the two stores. *)
Lemma v_writer : forall tr s, exec vinit vstep tr s -> typ s = TyProg ->
  exists w v, vpcs s w = VStoreData v \/ vpcs s w = VStoreType v.
Proof.
  intros tr s E T. pose proof (vinv_exec _ _ E) as I. unfold vinv in I. rewrite T in I.
  destruct I as (_ & _ & _ & w & v & _ & [F|[F _]]); exists w, v; auto.
Qed.

(** ** Chan *)
Section Chan.
Variable V : Type.
Notation oexec := (exec (@oinit V) ostep).

Definition ofuel (p : opc V) : nat :=
  match p with OIdle | ODead => 0 | OCas _ => 4 | OSend _ => 3 | OClose => 2 | ORet _ => 1 end.

Definition owho (l : olabel V) : option nat :=
  match l with OCall t _ | OWin t _ | OLose t | OTau t | OPanic t | OReturn t _ => Some t | ORecv _ => None end.

Lemma ostep_fuel : forall s l s', ostep s l s' ->
  match owho l with
  | None => opcs s' = opcs s /\ owrites l = false /\ obegins l = false
  | Some t => owrites l = true /\ (forall u, u <> t -> opcs s' u = opcs s u) /\
      (obegins l = true /\ opcs s t = OIdle /\ ofuel (opcs s' t) = 4 \/
       obegins l = false /\ opcs s t <> OIdle /\ opcs s t <> ODead /\ S (ofuel (opcs s' t)) <= ofuel (opcs s t))
  end.
Proof.
  intros s l s' St. inversion St; subst; cbn [owho owrites obegins opcs]; auto;
    (split; [reflexivity|]); (split; [intros u Hu; apply upd_other; congruence|]); rewrite ?upd_same, ?H; cbn [ofuel];
    ((left; repeat split; auto; fail) || (right; repeat split; try discriminate; lia)).
Qed.

Lemma o_bound : forall tr s, oexec tr s ->
  exists l, NoDup l /\ (forall u, opcs s u <> OIdle -> opcs s u <> ODead -> In u l) /\
    length (filter owrites tr) + tot (fun u => ofuel (opcs s u)) l <= 5 * length (filter obegins tr).
Proof.
  intros tr s E. revert tr s E. apply (exec_ind_inv _ _ (fun tr s => exists l, NoDup l /\ (forall u, opcs s u <> OIdle -> opcs s u <> ODead -> In u l) /\
    length (filter owrites tr) + tot (fun u => ofuel (opcs s u)) l <= 5 * length (filter obegins tr))).
  - intros s (_ & _ & _ & A). exists []. split; [constructor|]. split; [intros u Hu; now rewrite A in Hu|]. cbn. lia.
  - intros tr s l s' _ (ls & ND & In1 & Bd) St. pose proof (ostep_fuel _ _ _ St) as F. rewrite !filter_app, !app_length. cbn [filter].
    destruct (owho l) as [t|].
    + destruct F as (W & O & [(B1 & B2 & B3)|(B1 & B2 & B3 & B4)]); rewrite W, B1; cbn [length].
      * assert (E : exists ls', NoDup ls' /\ (forall u, opcs s u <> OIdle -> opcs s u <> ODead -> In u ls') /\ In t ls' /\
          tot (fun u => ofuel (opcs s u)) ls' = tot (fun u => ofuel (opcs s u)) ls).
        { destruct (in_dec Nat.eq_dec t ls) as [I|I]; [exists ls; auto|].
          exists (t :: ls). split; [now constructor|]. split; [intros u Hu Hd; right; auto|]. split; [now left|]. cbn. now rewrite B2. }
        destruct E as (ls' & ND' & In' & Iw & Et). exists ls'. split; auto. split.
        { intros u Hu Hd. destruct (Nat.eq_dec u t) as [->|Nu]; auto. rewrite (O u Nu) in *. auto. }
        assert (T : tot (fun u => ofuel (opcs s' u)) ls' <= tot (fun u => ofuel (opcs s u)) ls' + 4).
        { apply tot_inc with (t := t); auto; [|lia]. intros u Hu. now rewrite (O u Hu). }
        lia.
      * exists ls. split; auto. split.
        { intros u Hu Hd. destruct (Nat.eq_dec u t) as [->|Nu]; auto. rewrite (O u Nu) in *. auto. }
        assert (T : S (tot (fun u => ofuel (opcs s' u)) ls) <= tot (fun u => ofuel (opcs s u)) ls).
        { apply tot_dec with (t := t); auto. intros u Hu. now rewrite (O u Hu). }
        lia.
    + destruct F as (F1 & F2 & F3). rewrite F1, F2, F3. exists ls. repeat split; auto. cbn. lia.
Qed.
End Chan.
