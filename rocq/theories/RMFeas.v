(** * C110: the traces of ResourceManager are possible *)
From Coq Require Import List Bool Lia Arith.
From stdpp Require Import gmap.
From Verif Require Import Trans RMModel RMSpec RMProofs SyncSpec SyncProofs FeasSpec FeasProofs FeasLock RMSyncModel RMSyncProofs.

Notation okm := (ok (L := place) (M := object) (B := rlabel) MRw).
Record F (T : list ev) (s : rstate) : Prop := {
  f_ok : okm T (wr s) (rd s);
  f_wait : forall f, rs s f = None -> none (AWaited (MCall f)) T
}.
Lemma F_all : forall tr T s, runs tr T s -> F T s.
Proof.
  apply (traced_ind_inv rinit rstep rm_acts (fun _ T s => F T s)).
  - intros s (_ & Hw & Hd & _). constructor; [rewrite Hw, Hd; apply ok_nil|constructor].
  - intros tr T s l s' Hrun [O Fw] St. assert (I : RInv s) by (eapply rinv, traced_exec; eauto). clear Hrun.
    assert (Hw : forall t, writer (rp s t) = true -> wr s = Some t) by apply I.
    assert (K : forall E, List.Forall (fun e => forall f, snd e <> AWaited (MCall f)) E -> forall f, rs s f = None -> none (AWaited (MCall f)) (T ++ E)).
    { intros E HE f Hf. apply none_app; [auto|]. eapply List.Forall_impl; [|exact HE]. cbn. auto. }
    rcases St E E2; unfold rm_acts; cbn [rp wr rd rs] in *; rewrite ?E; cbn [rm_tau map app];
      try (assert (Hm : w = Some t) by (apply Hw; rewrite E; reflexivity); subst w).
    all: constructor; cbn [wr rd rs].
    all: try solve [apply K; repeat constructor; cbn [snd]; discriminate].
    all: try solve [repeat (apply ok_cons); try apply ok_end; repeat (first [exact O|apply ok_lab|apply ok_rd|apply ok_wr])].
    all: try solve [repeat (apply ok_cons); try apply ok_end; repeat (first [apply ok_lab|apply ok_rd|apply ok_wr|apply ok_lock|apply ok_rlock|eapply ok_unlk|exact O])].
    + destruct n as [|n]; [|now apply ok_runlk]. exfalso. destruct (r_rd _ I) as (Ls & _ & Hl & Hi). cbn [rd rp] in *.
      assert (Ht : In t Ls) by (apply Hi; now rewrite E). destruct Ls; [contradiction|discriminate].
    + assert (Hn : R f = None) by (eapply (r_lead0 _ I t k f); cbn [rp]; now rewrite E).
      apply ok_other; [auto|apply m_done; now apply Fw|]. intros [Q|[Q|[Q|Q]]]; discriminate.
    + intros f0 Hf0. apply K; [repeat constructor; cbn [snd]; discriminate|]. unfold upd in Hf0. destruct (Nat.eqb f f0); [discriminate|exact Hf0].
    + apply ok_other; [auto|apply m_waited|]. intros [Q|[Q|[Q|Q]]]; discriminate.
    + intros f0 Hf0. apply none_app; [auto|]. repeat constructor. cbn [snd]. intros Q. injection Q as ->. congruence.
    + case_bool_decide; cbn [app]; repeat (apply ok_cons); repeat (first [exact O|apply ok_lab|apply ok_rd|apply ok_wr]).
    + case_bool_decide; cbn [app]; apply K; repeat constructor; cbn [snd]; discriminate.
Qed.
(** C110: the traces that C103 is about can be: the lock is taken and given back as a lock is, and no call's Wait returns
    before the Done of that call. *)
Theorem C110_rm : forall tr T s, runs tr T s -> feasible T.
Proof. intros tr T s R. exact (o_fe _ _ _ _ (f_ok _ _ (F_all _ _ _ R))). Qed.
Print Assumptions C110_rm.
