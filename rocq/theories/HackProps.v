(** * Property C86: Reverse shares memory safely *)
From Coq Require Import ZArith List Bool Arith Lia.
From Verif Require Import GoBase Trans Utf8Model Utf8Spec Utf8Facts XStringModel XStringSpec XStringProofs XStringProofs2 XStringProps HackModel HackProofs.
Import ListNotations.
Open Scope nat_scope.
Notation hexec := (exec hinit hstep).

(** No string a program has ever changes, whatever calls of Reverse and other code do. *)
Theorem C86_strings_never_change : forall tr s tr2 s' x, hexec tr s -> valid s x -> steps hstep s tr2 s' ->
  valid s' x /\ text s' x = text s x.
Proof. intros tr s tr2 s' x X V R. eapply steps_valid; eauto. now exists tr. Qed.

(** A call that returns gives the reverse of what its argument was when it was called and still is;
    the result is a string like any other (so it never changes either): the argument itself if
    that is empty, and otherwise one in memory nobody had when the call began. *)
Theorem C86_result : forall tr t r ok s, hexec (tr ++ [HRet t r ok]) s ->
  exists tr0 a c s0, tr = tr0 ++ HCall t a :: c /\ hquiet t c /\ hexec tr0 s0 /\ valid s0 a /\
    Reverse (text s0 a) = Ok (text s r, ok) /\ text s a = text s0 a /\ valid s r /\
    (sln a = 0 /\ r = a \/ sln r = sln a /\ owner s0 (sblk r) = Nobody).
Proof.
  intros tr t r ok s X. pose proof X as X'. apply exec_app_inv in X. destruct X as (s1 & X & St).
  apply (steps_cons_inv hstep) in St. destruct St as (s2 & St & Z0). apply (steps_nil_inv hstep) in Z0. subst s2.
  destruct (HT_exec _ _ X t) as [I0|(tr0 & a & c & s0 & E & Q & X0 & R & V & P)]; [inversion St; subst; cbn in I0; congruence|].
  exists tr0, a, c, s0. do 4 (split; [assumption|]).
  assert (R2 : steps hstep s0 ((HCall t a :: c) ++ [HRet t r ok]) s) by (econstructor; eauto).
  assert (RC : reachable hinit hstep s0) by now exists tr0.
  destruct (steps_valid _ _ _ RC R2 a V) as (V2 & T2).
  unfold pinv in P. inversion St; subst. cbn [hpcs cells owner] in *. match goal with H : g t = HBack _ _ |- _ => rewrite H in P end.
  destruct P as [(P1 & -> & ->)|(P1 & P2 & P3 & P4 & P5 & P6 & P7)].
  - assert (TA : text s0 a = []) by (unfold text, window; rewrite P1; reflexivity). rewrite T2, TA.
    split; [reflexivity|]. split; auto.
  - assert (TR : text (HS h (fun b => match o b with Priv u => if u =? t then Frozen else Priv u | x => x end) (upd g t HIdle)) r = h (sblk r)).
    { unfold text, window. cbn [cells]. rewrite P2. cbn [skipn]. rewrite <- P5. apply firstn_all. }
    rewrite TR. split; auto. split; auto. split; [|auto]. right. cbn [owner cells]. rewrite P4, Nat.eqb_refl. split; auto. lia.
Qed.

(** In terms of characters *)
Corollary C86_reverses : forall tr t r ok s, hexec (tr ++ [HRet t r ok]) s ->
  exists tr0 a c s0, tr = tr0 ++ HCall t a :: c /\ hquiet t c /\ hexec tr0 s0 /\
    (ok = true <-> utf8_valid (text s0 a) /\ ~ In 65533%Z (runes (text s0 a))) /\
    (ok = true -> text s r = encs (rev (runes (text s0 a)))).
Proof.
  intros tr t r ok s X. destruct (C86_result _ _ _ _ _ X) as (tr0 & a & c & s0 & E & Q & X0 & _ & RV & _).
  exists tr0, a, c, s0. repeat (split; auto); destruct (C07_reverse (text s0 a)) as (r1 & ok1 & E1 & A & B);
    rewrite E1 in RV; inversion RV; subst; try apply A; auto. intros H. now apply B.
Qed.

(** It never panics (index out of range, in the slice or in EncodeRune), *)
Theorem C86_no_panic : forall tr s t, hexec tr s -> hpcs s t <> HPanic.
Proof.
  intros tr s t X E. destruct (HT_exec _ _ X t) as [I0|(tr0 & a & c & s0 & _ & _ & _ & _ & _ & P)]; [congruence|].
  unfold pinv in P. now rewrite E in P.
Qed.

(** is never stuck while there is memory, *)
Theorem C86_progress : forall tr s t, hexec tr s -> hpcs s t <> HIdle -> (exists b, owner s b = Nobody) ->
  exists l s', hstep s l s' /\ (l = HTau t \/ exists r ok, l = HRet t r ok).
Proof.
  intros tr [h o g] t X N (b & Hb). pose proof (C86_no_panic _ _ t X) as NP. cbn in *. destruct (g t) eqn:Hg; try congruence.
  - destruct (Nat.eq_dec (sln s) 0); eexists _, _; (split; [|left; reflexivity]); [eapply HSEmpty|eapply HSMake]; eauto.
  - destruct (Nat.eq_dec si 0) as [->|]; [eexists _, _; split; [eapply HSDone; eauto|left; reflexivity]|].
    destruct (le_lt_dec si (bcapa src)); [|eexists _, _; split; [eapply HSSlice; eauto|left; reflexivity]].
    destruct (decode_last (window h (bblk src) (boff src) si)) as [r n0] eqn:D.
    destruct (Z.eq_dec r rune_error) as [->|]; eexists _, _; (split; [|left; reflexivity]); [eapply HSBad; eauto; lia|eapply HSRune; eauto; lia].
  - destruct bs as [|c bs]; [eexists _, _; split; [eapply HSNext; eauto|left; reflexivity]|].
    destruct (le_lt_dec (blen dst) pos); eexists _, _; (split; [|left; reflexivity]); [eapply HSIndex|eapply HSByte]; eauto.
  - eexists _, _. split; [eapply HSRet; eauto|]. right. eauto.
Qed.

(** and returns after a number of steps proportional to the length of its argument. *)
Definition work (t : nat) (c : list hlabel) : nat := length (filter (fun l => match l with HTau u => u =? t | _ => false end) c).
Definition rank (a : gostr) (p : hpc) : nat :=
  match p with
  | HStart _ => 6 * sln a + 2
  | HLoop _ _ si _ => 6 * si + 1
  | HPut _ _ _ bs si _ => length bs + 6 * si + 2
  | _ => 0
  end.
Lemma rank_step : forall tr s s' t tr0 a c, hexec tr s -> hstep s (HTau t) s' -> tr = tr0 ++ HCall t a :: c -> hquiet t c ->
  rank a (hpcs s' t) < rank a (hpcs s t).
Proof.
  intros tr s s' t tr0 a c X St E Q. pose proof (J_reach s (ex_intro (fun tr => hexec tr s) _ X)) as HJ.
  destruct (HT_exec _ _ X t) as [I0|(tr1 & a1 & c1 & s0 & E1 & Q1 & X0 & R & V & P)]; [inversion St; subst; cbn in I0; congruence|].
  assert (a1 = a).
  { rewrite E1 in E. clear -E Q Q1. revert tr0 E. induction tr1 as [|y tr1 IH]; intros [|z tr0] E; cbn in E.
    - congruence.
    - inversion E; subst. exfalso. destruct (Q1 (HCall t a)) as [N _]; [apply in_or_app; cbn; auto|]. now apply (N a).
    - inversion E; subst. exfalso. destruct (Q (HCall t a1)) as [N _]; [apply in_or_app; cbn; auto|]. now apply (N a1).
    - inversion E; subst. eauto. }
  subst a1. assert (RC : reachable hinit hstep s0) by now exists tr1.
  destruct (steps_valid _ _ _ RC R a V) as (V2 & T2).
  unfold pinv in P. inversion St; subst; cbn [hpcs cells owner] in *; rewrite upd_same; match goal with H : ?gg t = _ |- _ => rewrite H in P |- * end; cbn [rank length] in *.
  - lia.
  - subst a0. lia.
  - lia.
  - lia.
  - destruct P as ((A & -> & C & D) & Hs & f & Hf & _). cbn in *. destruct V2 as [V2|[V3 V4]]; [lia|]. cbn [cells] in V4.
    assert (WN : window h (sblk a) (soff a) si <> []).
    { intros Z0. apply (f_equal (@length Z)) in Z0. rewrite window_length in Z0 by lia. cbn in Z0. lia. }
    match goal with H : decode_last _ = _, N : _ <> rune_error |- _ => destruct (decode_last_sound _ _ _ WN H N) as (p' & Ep & En & _) end.
    apply (f_equal (@length Z)) in Ep. rewrite app_length, window_length in Ep by lia.
    pose proof (encode_length r). subst n. unfold zlen. rewrite Nat2Z.id. lia.
  - lia.
  - lia.
  - lia.
  - lia.
Qed.
Theorem C86_bounded : forall c tr0 t a s, hexec (tr0 ++ HCall t a :: c) s -> hquiet t c ->
  work t c + rank a (hpcs s t) <= 6 * sln a + 2.
Proof.
  induction c as [|l c IH] using rev_ind; intros tr0 t a s X Q.
  - apply exec_app_inv in X. destruct X as (s1 & X & St). apply (steps_cons_inv hstep) in St. destruct St as (s2 & St & Z0).
    apply (steps_nil_inv hstep) in Z0. subst s2. inversion St; subst. cbn [hpcs]. rewrite upd_same. cbn. lia.
  - change (tr0 ++ HCall t a :: c ++ [l]) with (tr0 ++ (HCall t a :: c) ++ [l]) in X. rewrite app_assoc in X. apply exec_app_inv in X.
    destruct X as (s1 & X & St). apply (steps_cons_inv hstep) in St. destruct St as (s2 & St & Z0). apply (steps_nil_inv hstep) in Z0. subst s2.
    assert (Q' : hquiet t c) by (intros y Hy; apply Q, in_or_app; auto). specialize (IH _ _ _ _ X Q').
    assert (QL : (forall a, l <> HCall t a) /\ (forall r ok, l <> HRet t r ok)) by (apply Q, in_or_app; cbn; auto).
    unfold work in *. rewrite filter_app, app_length. cbn [filter].
    destruct l as [u b|u r ok|u|]; cbn [length] in *.
    + rewrite (other_pc _ _ _ t St); [lia|]. cbn. intros ->. now apply (proj1 QL b).
    + rewrite (other_pc _ _ _ t St); [lia|]. cbn. intros ->. now apply (proj2 QL r ok).
    + destruct (Nat.eqb_spec u t) as [->|Nu]; cbn [length].
      * pose proof (rank_step _ _ _ _ _ _ _ X St eq_refl Q'). lia.
      * rewrite (other_pc _ _ _ t St); [lia|]. cbn. auto.
    + rewrite (other_pc _ _ _ t St); [lia|]. cbn. auto.
Qed.

(** The substring "cab" of "xcab" is reversed to "bac" while another goroutine fills a buffer. *)
Example C86_ex : exists tr s r, hexec (tr ++ [HRet 0 r true]) s /\ text s r = [98; 97; 99]%Z /\
  text s (GS 0 0 4) = [120; 99; 97; 98]%Z /\ text s (GS 0 1 3) = [99; 97; 98]%Z /\ valid s (GS 0 0 4).
Proof.
  set (s0 := HS (fun b => if b =? 0 then [120; 99; 97; 98]%Z else []) (fun b => if b =? 0 then Frozen else Nobody) (fun _ => HIdle)).
  assert (H : exists tr s, steps hstep s0 tr s /\ hpcs s 0 = HBack (GS 1 0 3) true /\ cells s 1 = [98; 97; 99]%Z /\
    cells s 0 = [120; 99; 97; 98]%Z /\ owner s 0 = Frozen).
  { eexists _, _. split.
    - eapply steps_cons; [apply (HSCall _ _ _ 0 (GS 0 1 3)); [reflexivity|right; cbn; auto]|].
      eapply steps_cons; [eapply (HSMake _ _ _ 0 _ 1); [reflexivity|cbn; lia|reflexivity]|].
      eapply steps_cons; [apply (HSAlloc _ _ _ 2 [1; 2]%Z); reflexivity|].
      eapply steps_cons; [eapply (HSRune _ _ _ 0); [reflexivity|split; vm_compute; lia|reflexivity|discriminate]|].
      eapply steps_cons; [eapply (HSByte _ _ _ 0); [reflexivity|vm_compute; lia]|].
      eapply steps_cons; [eapply (HSStore _ _ _ 2 0 7%Z); reflexivity|].
      eapply steps_cons; [eapply (HSNext _ _ _ 0); reflexivity|].
      eapply steps_cons; [eapply (HSRune _ _ _ 0); [reflexivity|split; vm_compute; lia|reflexivity|discriminate]|].
      eapply steps_cons; [eapply (HSByte _ _ _ 0); [reflexivity|vm_compute; lia]|].
      eapply steps_cons; [eapply (HSNext _ _ _ 0); reflexivity|].
      eapply steps_cons; [eapply (HSRune _ _ _ 0); [reflexivity|split; vm_compute; lia|reflexivity|discriminate]|].
      eapply steps_cons; [eapply (HSByte _ _ _ 0); [reflexivity|vm_compute; lia]|].
      eapply steps_cons; [eapply (HSNext _ _ _ 0); reflexivity|].
      eapply steps_cons; [eapply (HSDone _ _ _ 0); reflexivity|].
      apply steps_nil.
    - repeat split; reflexivity. }
  destruct H as (tr & [h o g] & H & Hp & H1 & H0 & Ho). cbn in Hp, H1, H0, Ho.
  eexists tr, _, (GS 1 0 3). split.
  - eapply exec_snoc; [exists s0; split; [|exact H]|eapply HSRet; eauto]. split; [|reflexivity]. intros b. cbn. destruct b; auto.
  - unfold text, window, valid. cbn [cells owner sblk soff sln]. rewrite H1, H0, Ho. repeat split; auto.
Qed.

Print Assumptions C86_strings_never_change.
Print Assumptions C86_result.
Print Assumptions C86_reverses.
Print Assumptions C86_no_panic.
Print Assumptions C86_progress.
Print Assumptions C86_bounded.
Print Assumptions C86_ex.
