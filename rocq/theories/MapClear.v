(** * C55: Map.Clear and the words of m.read

    m.read is an atomic.Value, two words: a type word and a data word.  Go's sync/atomic
    (value.go, all versions since 1.13) reads and writes them one at a time; this file models
    that, for one Map used by any number of goroutines, and Clear's plain assignment
    m.read = atomic.Value{} (xsync/map.go:420).

    Writers hold m.mu (xsync/map.go:100-123, 134-161, 197-230, 269-300, 334-357, 389-410, 418-425, 449-480),
    so at any time at most one of them is under way.  A value of m.read is a number; what the
    maps contain is the matter of MapConcModel, which takes Load and Store of an atomic.Value
    for one step each. *)
From Coq Require Import List Bool Arith Lia.
Import ListNotations.
From Verif Require Import Trans.

(** The type word: nil; the mark of a first Store under way; the type readOnly *)
Inductive typ := TNil | TMark | TRO.
Record words := W { ty : typ; da : option nat }.   (* da: nil or a pointer to the value *)

(** The writer (the goroutine that has m.mu) *)
Inductive wpc :=
| WIdle
| WStore (v : nat)     (* Value.Store: before LoadPointer(&vp.typ) *)
| WFirst (v : nat)     (* typ == nil: before CompareAndSwapPointer(&vp.typ, nil, ^0) *)
| WData (v : nat)      (* before StorePointer(&vp.data), then typ *)
| WTyp                 (* before StorePointer(&vp.typ) *)
| WOver (v : nat)      (* typ known: before StorePointer(&vp.data) *)
| WClearT | WClearD.   (* map.go:420, one of the two words still to be written *)
(** A reader, in m.read.Load().(readOnly) *)
Inductive rpc :=
| RIdle
| RTyp                 (* before LoadPointer(&vp.typ) *)
| RData                (* before LoadPointer(&vp.data); the type word was readOnly *)
| RGot (d : option nat)(* before the type assertion, which copies *data when the type matches *)
| RDead.
Record st := S_ { wd : words; wp : wpc; rp : nat -> rpc }.

(** Labels: Store and Clear begin and end; a reader begins, and gets the zero readOnly (None), or
    the stored one, or crashes reading through the nil data word. *)
Inductive label :=
| LStore (v : nat) | LStored | LClear | LCleared
| LLoad (t : nat) | LGot (t : nat) (v : option nat) | LCrash (t : nat) | LTau.

Inductive step : st -> label -> st -> Prop :=
(* func (v *Value) Store(x) *)
| SStore : forall w r v, step (S_ w WIdle r) (LStore v) (S_ w (WStore v) r)
| SType : forall w r v, step (S_ w (WStore v) r) LTau (S_ w (match ty w with TNil => WFirst v | TMark => WStore v | TRO => WOver v end) r)
| SFirst : forall d r v, step (S_ (W TNil d) (WFirst v) r) LTau (S_ (W TMark d) (WData v) r)
| SFirstNo : forall t d r v, t <> TNil -> step (S_ (W t d) (WFirst v) r) LTau (S_ (W t d) (WStore v) r)
| SData : forall t d r v, step (S_ (W t d) (WData v) r) LTau (S_ (W t (Some v)) WTyp r)
| STyp : forall t d r, step (S_ (W t d) WTyp r) LStored (S_ (W TRO d) WIdle r)
| SOver : forall t d r v, step (S_ (W t d) (WOver v) r) LStored (S_ (W t (Some v)) WIdle r)
(* m.read = atomic.Value{}: two plain writes, in either order *)
| SClearT : forall t d r, step (S_ (W t d) WIdle r) LClear (S_ (W TNil d) WClearD r)
| SClearD : forall t d r, step (S_ (W t d) WIdle r) LClear (S_ (W t None) WClearT r)
| SClearT2 : forall t d r, step (S_ (W t d) WClearT r) LCleared (S_ (W TNil d) WIdle r)
| SClearD2 : forall t d r, step (S_ (W t d) WClearD r) LCleared (S_ (W t None) WIdle r)
(* func (v *Value) Load() *)
| SLoad : forall w p r t, r t = RIdle -> step (S_ w p r) (LLoad t) (S_ w p (upd r t RTyp))
| SLoadNil : forall w p r t, r t = RTyp -> ty w <> TRO -> step (S_ w p r) (LGot t None) (S_ w p (upd r t RIdle))
| SLoadTyp : forall w p r t, r t = RTyp -> ty w = TRO -> step (S_ w p r) LTau (S_ w p (upd r t RData))
| SLoadData : forall w p r t, r t = RData -> step (S_ w p r) LTau (S_ w p (upd r t (RGot (da w))))
| SGot : forall w p r t v, r t = RGot (Some v) -> step (S_ w p r) (LGot t (Some v)) (S_ w p (upd r t RIdle))
| SCrash : forall w p r t, r t = RGot None -> step (S_ w p r) (LCrash t) (S_ w p (upd r t RDead)).
Definition init (s : st) : Prop := wd s = W TNil None /\ wp s = WIdle /\ forall t, rp s t = RIdle.

(** A reader that overlaps a Clear can crash. *)
Theorem C55_torn_read_witness : exists tr s, exec init step tr s /\
  tr = [LStore 7; LTau; LTau; LTau; LStored; LLoad 1; LTau; LClear; LCleared; LTau; LCrash 1].
Proof.
  eexists _, _. split; [|reflexivity].
  exists (S_ (W TNil None) WIdle (fun _ => RIdle)). split; [repeat split|].
  eapply steps_cons; [apply SStore|]. eapply steps_cons; [apply SType|]. eapply steps_cons; [apply SFirst|].
  eapply steps_cons; [apply SData|]. eapply steps_cons; [apply STyp|].
  eapply steps_cons; [apply SLoad with (t := 1); reflexivity|]. eapply steps_cons; [apply SLoadTyp with (t := 1); reflexivity|].
  eapply steps_cons; [apply SClearT|]. eapply steps_cons; [apply SClearD2|].
  eapply steps_cons; [apply SLoadData with (t := 1); reflexivity|]. eapply steps_cons; [apply SCrash with (t := 1); reflexivity|].
  apply steps_nil.
Qed.

(** Even without a crash: reader 1 gets the value 8 of a Store that is under way after a Clear,
    and reader 2, which begins when reader 1 has finished, gets nothing, although no Clear begins
    in between. *)
Theorem C55_inversion_witness : exists tr s, exec init step tr s /\
  tr = [LStore 7; LTau; LTau; LTau; LStored; LLoad 1; LTau; LClear; LCleared; LStore 8; LTau; LTau; LTau; LTau; LGot 1 (Some 8); LLoad 2; LGot 2 None].
Proof.
  eexists _, _. split; [|reflexivity].
  exists (S_ (W TNil None) WIdle (fun _ => RIdle)). split; [repeat split|].
  eapply steps_cons; [apply SStore|]. eapply steps_cons; [apply SType|]. eapply steps_cons; [apply SFirst|].
  eapply steps_cons; [apply SData|]. eapply steps_cons; [apply STyp|].
  eapply steps_cons; [apply SLoad with (t := 1); reflexivity|]. eapply steps_cons; [apply SLoadTyp with (t := 1); reflexivity|].
  eapply steps_cons; [apply SClearT|]. eapply steps_cons; [apply SClearD2|].
  eapply steps_cons; [apply SStore|]. eapply steps_cons; [apply SType|]. eapply steps_cons; [apply SFirst|]. eapply steps_cons; [apply SData|].
  eapply steps_cons; [apply SLoadData with (t := 1); reflexivity|]. eapply steps_cons; [apply SGot with (t := 1); reflexivity|].
  eapply steps_cons; [apply SLoad with (t := 2); reflexivity|]. eapply steps_cons; [apply SLoadNil with (t := 2); [reflexivity|discriminate]|].
  apply steps_nil.
Qed.

(** ** A Load no Clear overlaps *)
Definition clearing (s : st) : Prop := wp s = WClearT \/ wp s = WClearD.
(** what a Load finds *)
Definition now (s : st) : option nat := match ty (wd s) with TRO => da (wd s) | _ => None end.

(** The words while no Clear is under way *)
Definition wok (s : st) : Prop :=
  match wp s with
  | WIdle => ty (wd s) <> TMark /\ (ty (wd s) = TRO -> da (wd s) <> None)
  | WStore _ => ty (wd s) <> TMark /\ (ty (wd s) = TRO -> da (wd s) <> None)
  | WFirst _ => ty (wd s) = TNil
  | WData _ => ty (wd s) = TMark
  | WTyp => ty (wd s) = TMark /\ da (wd s) <> None
  | WOver _ => ty (wd s) = TRO /\ da (wd s) <> None
  | WClearT => da (wd s) = None
  | WClearD => ty (wd s) = TNil
  end.
Lemma wok_inv : forall tr s, exec init step tr s -> wok s.
Proof.
  apply (exec_ind_inv init step (fun _ s => wok s)).
  - intros s (A & B & _). unfold wok. rewrite A, B. cbn. split; discriminate.
  - intros tr s l s' _ I St. unfold wok in *. destruct St; cbn in *; auto; try tauto; try (split; [tauto|congruence]).
    all: try (destruct (ty w); cbn; tauto).
    all: try (split; [|tauto]; destruct I as [-> _]; discriminate).
    all: try (split; discriminate).
    all: try (split; congruence). destruct I as [-> _]. split; discriminate.
Qed.

(** t's Load since it began: where it stands, and the value it has read was there at some time *)
Definition sometime (P : st -> Prop) (s : st) (tr : list label) (s' : st) : Prop :=
  exists tr1 tr2 s1, tr = tr1 ++ tr2 /\ steps step s tr1 s1 /\ steps step s1 tr2 s' /\ P s1.
Definition ends (t : nat) (l : label) : Prop := match l with LGot u _ | LCrash u => u = t | _ => False end.
Definition rok (t : nat) (s : st) (tr : list label) (s' : st) : Prop :=
  match rp s' t with
  | RTyp => True
  | RData => ty (wd s') = TRO
  | RGot d => d <> None /\ sometime (fun x => now x = d) s tr s'
  | RIdle | RDead => False
  end.
Lemma sometime_snoc : forall P s tr s1 l s2, sometime P s tr s1 -> step s1 l s2 -> sometime P s (tr ++ [l]) s2.
Proof.
  intros P s tr s1 l s2 (t1 & t2 & x & -> & A & B & C) St. exists t1, (t2 ++ [l]), x. rewrite app_assoc. repeat split; auto.
  eapply steps_snoc; eauto.
Qed.
Lemma clear_later : forall tr0 s0 tr s, exec init step tr0 s0 -> steps step s0 tr s -> ~ clearing s0 -> ~ In LClear tr -> ~ clearing s.
Proof.
  intros tr0 s0 tr s E St N. induction St as [|tr s1 l s2 St IH Sl]; auto. intros NC [X|X]; apply IH; try (intros Y; apply NC, in_app_iff; auto; fail).
  all: destruct Sl; cbn in X; try discriminate; unfold clearing; cbn; auto; try (destruct (ty w); discriminate); exfalso; apply NC, in_app_iff; cbn; auto.
Qed.
Lemma load_run : forall tr0 s0 t s1, exec init step tr0 s0 -> step s0 (LLoad t) s1 -> ~ clearing s0 ->
  forall tr s, steps step s1 tr s -> ~ In LClear tr -> (forall l, In l tr -> ~ ends t l) -> rok t s1 tr s.
Proof.
  intros tr0 s0 t s1 E S0 N tr s St. assert (E1 : exec init step (tr0 ++ [LLoad t]) s1) by (eapply exec_snoc; eauto).
  assert (N1 : ~ clearing s1) by (inversion S0; subst; auto).
  induction St as [|tr s l s' St IH Sl]; intros NC NE.
  - inversion S0; subst. unfold rok. cbn. now rewrite upd_same.
  - assert (I : rok t s1 tr s) by (apply IH; [intros X; apply NC, in_app_iff; auto|intros x X; apply NE, in_app_iff; auto]).
    assert (Ex : exec init step ((tr0 ++ [LLoad t]) ++ tr) s) by (destruct E1 as (i & ? & ?); exists i; split; auto; eapply steps_app; eauto).
    assert (Nc : ~ clearing s) by (apply (clear_later _ _ _ _ E1 St N1); intros X; apply NC, in_app_iff; auto).
    pose proof (wok_inv _ _ Ex) as Wk. assert (Nl : l <> LClear) by (intros ->; apply NC, in_app_iff; cbn; auto).
    assert (Ne : ~ ends t l) by (apply NE, in_app_iff; cbn; auto).
    assert (Q : forall d, sometime (fun x => now x = d) s1 tr s -> sometime (fun x => now x = d) s1 (tr ++ [l]) s') by (intros; eapply sometime_snoc; eauto).
    clear IH. unfold rok in *. destruct Sl; cbn [rp wd wp] in *; try congruence; try (exfalso; apply Nc; unfold clearing; cbn; auto; fail).
    all: try (destruct (r t) eqn:Rt; auto; unfold wok in Wk; cbn in *; try (destruct I; split; auto; fail); intuition congruence).
    all: unfold upd; destruct (t0 =? t) eqn:Et; [apply Nat.eqb_eq in Et; subst t0|destruct (r t); auto; destruct I; split; auto].
    + now rewrite H in I.
    + now apply Ne.
    + auto.
    + rewrite H in I. unfold wok in Wk. cbn in Wk. split.
      * destruct p; cbn in Wk; try (exfalso; apply Nc; unfold clearing; cbn; auto; fail); intuition congruence.
      * exists tr, [LTau], (S_ w p r). repeat split; auto. { apply steps_cons with (s1 := S_ w p (upd r t (RGot (da w)))); [now apply SLoadData|apply steps_nil]. }
        unfold now. cbn. now rewrite I.
    + now apply Ne.
    + now apply Ne.
Qed.

(** A Load that no Clear overlaps does not crash, and the value it gets was in m.read at some
    instant of the Load. *)
Theorem C55_load_without_clear : forall tr0 s0 t s1 tr s l s', exec init step tr0 s0 -> step s0 (LLoad t) s1 -> ~ clearing s0 ->
  steps step s1 tr s -> ~ In LClear tr -> (forall x, In x tr -> ~ ends t x) -> step s l s' -> ends t l ->
  exists v, l = LGot t v /\ sometime (fun x => now x = v) s1 tr s.
Proof.
  intros tr0 s0 t s1 tr s l s' E S0 N St NC NE Sl En. pose proof (load_run _ _ _ _ E S0 N _ _ St NC NE) as I. unfold rok in I.
  destruct Sl; cbn in En; try contradiction; subst t0; cbn in I; rewrite H in I.
  - exists None. split; auto. exists tr, [], (S_ w p r). rewrite app_nil_r. repeat split; auto; [constructor|]. unfold now. cbn. destruct (ty w); auto; congruence.
  - exists (Some v). split; auto. tauto.
  - now destruct I.
Qed.
(** What is in m.read is what was stored last: it changes only when a Store ends, to the value
    stored, and when a Clear begins or ends, to nothing. *)
Theorem C55_contents_change : forall tr s l s', exec init step tr s -> step s l s' ->
  now s' = match l with
           | LStored => match wp s with WTyp => da (wd s) | WOver v => Some v | _ => now s end
           | LClear | LCleared => None
           | _ => now s end.
Proof.
  intros tr s l s' E St. pose proof (wok_inv _ _ E) as Wk. unfold wok, now in *. destruct St; cbn in *; auto.
  - now rewrite Wk.
  - destruct Wk as [-> _]. auto.
  - destruct t; auto.
  - rewrite Wk. auto.
Qed.
Theorem C55_store_value : forall tr s, exec init step tr s -> forall s1 v tr1 s2, step s (LStore v) s1 -> steps step s1 tr1 s2 -> ~ In LStored tr1 ->
  forall s3, step s2 LStored s3 -> now s3 = Some v.
Proof.
  intros tr s E s1 v tr1 s2 S0 St NS s3 S3.
  assert (I : match wp s2 with WStore x | WFirst x | WData x | WOver x => x = v | WTyp => da (wd s2) = Some v | _ => False end).
  { clear S3. induction St as [|tr1 s2 l s' St IH Sl]; [inversion S0; subst; reflexivity|].
    assert (I := IH (fun X => NS (proj2 (in_app_iff _ _ _) (or_introl X)))).
    assert (Nl : l <> LStored) by (intros ->; apply NS, in_app_iff; cbn; auto). destruct Sl; cbn in *; auto; try contradiction; try congruence.
    destruct (ty w); auto. }
  assert (E2 : exec init step ((tr ++ [LStore v]) ++ tr1) s2).
  { assert (E1 : exec init step (tr ++ [LStore v]) s1) by (eapply exec_snoc; eauto). destruct E1 as (i & ? & ?); exists i; split; auto; eapply steps_app; eauto. }
  rewrite (C55_contents_change _ _ _ _ E2 S3). inversion S3; subst; cbn in *; congruence.
Qed.
Print Assumptions C55_torn_read_witness.
Print Assumptions C55_inversion_witness.
Print Assumptions C55_load_without_clear.
Print Assumptions C55_contents_change.
Print Assumptions C55_store_value.
