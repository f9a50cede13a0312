(** * C104: memory guarded by the spin lock has no data race *)
From Coq Require Import List Bool Lia Arith.
From Verif Require Import Trans SpinModel SpinSpec SpinProps SyncSpec SyncProofs SpinSyncModel SpinSyncSpec.
Import ListNotations.

Notation runs := (traced sinit cstep spin_acts).

Lemma libs_app : forall a b, libs (a ++ b) = libs a ++ libs b.
Proof. induction a as [|[l|t x w] a IH]; intros; cbn; rewrite ?IH; auto. Qed.
Lemma runs_exec : forall tr T s, runs tr T s -> sexec (libs tr) s.
Proof.
  intros tr T s H. induction H as [s H|tr T s l s' H IH St]; [now apply exec_nil|]. rewrite libs_app.
  inversion St; subst; cbn; [eapply exec_snoc; eauto|now rewrite app_nil_r].
Qed.

(** The goroutine between a successful attempt and the store of its Unlock. *)
Definition holder (tr : list clabel) (s : sstate) (h : nat) : Prop :=
  owners (libs tr) = [h] \/ (owners (libs tr) = [] /\ holding (spcs s h) = true).
Section Guard.
Variable x : nat.
(** Uses of x and calls of Unlock. *)
Definition mark (T : list ev) (i : nat) : Prop :=
  (exists t a, nth_error T i = Some (t, a) /\ touches a (PUser x)) \/ (exists t, nth_error T i = Some (t, ALab (Lib (SUCall t)))).
Definition passed (tr : list clabel) (T : list ev) (s : sstate) : Prop :=
  forall i, mark T i -> if word s then forall h, holder tr s h -> seen T i h else seenX T PWord i.

Lemma mark_snoc : forall T t a i, mark (T ++ [(t, a)]) i -> mark T i \/ (i = length T /\ (touches a (PUser x) \/ a = ALab (Lib (SUCall t)))).
Proof.
  intros T t a i [(u & b & Hn & Ht)|(u & Hn)]; destruct (nth_snoc _ _ _ _ Hn) as [Hn'|[-> E]].
  - left. left. eauto.
  - inversion E; subst. auto.
  - left. right. eauto.
  - inversion E; subst. auto.
Qed.
Lemma no_write : forall a, a = @AtRd place unit clabel PWord \/ (exists b, a = ALab b) \/ (exists y, a = ARd (PUser y) \/ a = AWr (PUser y)) -> ~ writes a PWord.
Proof. intros a H [W|[W|W]]; subst; destruct H as [H|[(b & H)|(y & [H|H])]]; discriminate. Qed.
Lemma not_touch : forall a, a = @AtRd place unit clabel PWord \/ a = AtWr PWord \/ a = AtCas PWord \/ (exists b, a = ALab b) -> ~ touches a (PUser x).
Proof. intros a H [[W|[W|W]]|[W|[W|W]]]; subst; destruct H as [H|[H|[H|(b & H)]]]; discriminate. Qed.

(** A step that leaves the word and the holder alone. *)
Lemma passed_quiet : forall tr T s s' l t a, passed tr T s -> word s' = word s ->
  (forall h, holder (tr ++ [l]) s' h -> holder tr s h) ->
  ~ writes a PWord -> ~ touches a (PUser x) -> a <> ALab (Lib (SUCall t)) -> passed (tr ++ [l]) (T ++ [(t, a)]) s'.
Proof.
  intros tr T s s' l t a HP Hw Hh Ha Ht Hu i Hm. destruct (mark_snoc _ _ _ _ Hm) as [Hm'|[_ [H|H]]]; [|contradiction|contradiction].
  specialize (HP i Hm'). rewrite Hw. destruct (word s).
  - intros h H. apply seen_app, HP, Hh, H.
  - now apply seenX_snoc.
Qed.

Lemma owners_lib : forall tr l, owners (libs (tr ++ [Lib l])) = own_step (owners (libs tr)) l.
Proof. intros. rewrite libs_app. cbn. apply owners_snoc. Qed.

Lemma passed_all : forall tr T s, runs tr T s -> disciplined (libs tr) -> guarded_by_lock x tr -> passed tr T s /\ race_free_on T (PUser x).
Proof.
  apply (traced_ind_inv sinit cstep spin_acts (fun tr T s => disciplined (libs tr) -> guarded_by_lock x tr -> passed tr T s /\ race_free_on T (PUser x))).
  - intros s _ _ _. split; [|apply race_free_nil]. intros i [(t & a & Hn & _)|(t & Hn)]; destruct i; discriminate.
  - intros tr T s l s' H IH St D G.
    assert (D' : disciplined (libs tr)).
    { rewrite libs_app in D. destruct l as [l|]; [now apply disciplined_snoc in D|]. cbn in D. now rewrite app_nil_r in D. }
    assert (G' : guarded_by_lock x tr).
    { intros tr1 t w tr2 E. apply (G tr1 t w (tr2 ++ [l])). rewrite E, <- app_assoc. reflexivity. }
    destruct (IH D' G') as [HP HR]. clear IH.
    pose proof (sinv_exec _ _ (runs_exec _ _ _ H) D') as Iv. unfold sinv in Iv.
    assert (Q : forall t a, ~ touches a (PUser x) -> race_free_on (T ++ [(t, a)]) (PUser x)).
    { intros t a Ha. apply race_free_on_snoc; auto. intros; contradiction. }
    inversion St as [s0 l0 s1 St'|s0 t y w Hp]; subst.
    + (* a step of the lock *)
      inversion St'; subst; cbn [spin_acts word spcs] in *; (split; [|apply Q, not_touch; eauto]).
      (* calls, yields, failed attempts, returns of Unlock *)
      all: try (eapply passed_quiet; [exact HP|reflexivity| |apply no_write; eauto|apply not_touch; eauto|discriminate];
        intros h; unfold holder; rewrite owners_lib; cbn [own_step spcs]; intros [Hh|[Hh Hq]]; auto; right; split; auto;
        unfold upd in Hq; destruct (Nat.eqb_spec t h) as [Eh|Eh]; auto; subst h; rewrite ?yields_holding in Hq; try discriminate; rewrite H0; auto; fail).
      * (* Lock succeeds *) intros i Hm. cbn [word]. destruct (mark_snoc _ _ _ _ Hm) as [Hm'|[_ [X|X]]];
          [|exfalso; revert X; apply not_touch; auto|discriminate]. specialize (HP i Hm'). cbn [word] in HP.
        intros h Hh. assert (h = t).
        { destruct Iv as [I1 I2]. destruct Hh as [Hh|[_ Hh]]; [rewrite owners_lib in Hh; cbn [own_step] in Hh; congruence|].
          cbn [spcs] in Hh. unfold upd in Hh. destruct (Nat.eqb_spec t h); auto. now rewrite I2 in Hh. }
        subst h. eapply hb_seen, seenX_next; eauto; [exact I|right; right; reflexivity].
      * (* Lock returns *) eapply passed_quiet; [exact HP|reflexivity| |apply no_write; eauto|apply not_touch; eauto|discriminate].
        intros h [Hh|[Hh _]]; rewrite owners_lib in Hh; cbn [own_step] in Hh; [|discriminate]. injection Hh as -> Hh. right. split; auto. cbn. now rewrite H0.
      * (* TryLock succeeds *) intros i Hm. cbn [word]. destruct (mark_snoc _ _ _ _ Hm) as [Hm'|[_ [X|X]]];
          [|exfalso; revert X; apply not_touch; auto|discriminate]. specialize (HP i Hm'). cbn [word] in HP.
        intros h Hh. assert (h = t).
        { destruct Iv as [I1 I2]. destruct Hh as [Hh|[_ Hh]]; [rewrite owners_lib in Hh; cbn [own_step] in Hh; congruence|].
          cbn [spcs] in Hh. unfold upd in Hh. destruct (Nat.eqb_spec t h); auto. now rewrite I2 in Hh. }
        subst h. eapply hb_seen, seenX_next; eauto; [exact I|right; right; reflexivity].
      * (* TryLock returns *) eapply passed_quiet; [exact HP|reflexivity| |apply no_write; eauto|apply not_touch; eauto|discriminate].
        intros h [Hh|[Hh Hq]]; rewrite owners_lib in Hh; destruct r; cbn [own_step] in Hh; try discriminate.
        -- injection Hh as -> Hh. right. split; auto. cbn. now rewrite H0.
        -- now left.
        -- right. split; auto. cbn [spcs] in *. unfold upd in Hq. destruct (Nat.eqb_spec t h); auto. discriminate.
      * (* Unlock is called *)
        assert (Ho : In t (owners (libs tr))) by (rewrite libs_app in D; apply disciplined_snoc in D; now apply D).
        destruct w; [|destruct Iv as [Iv _]; rewrite Iv in Ho; contradiction].
        destruct Iv as (h0 & [(Io & In0)|(Io & _)]); rewrite Io in Ho; [|contradiction]. destruct Ho as [->|[]].
        intros i Hm. cbn [word]. intros h Hh. assert (h = t).
        { destruct Hh as [Hh|[_ Hh]]; [rewrite owners_lib, Io in Hh; cbn in Hh; rewrite Nat.eqb_refl in Hh; discriminate|].
          cbn [spcs] in Hh. unfold upd in Hh. destruct (Nat.eqb_spec t h); auto. now rewrite In0 in Hh. }
        subst h. destruct (mark_snoc _ _ _ _ Hm) as [Hm'|[-> _]]; [|apply seen_here].
        apply seen_app, (HP i Hm'). now left.
      * (* the store of Unlock *)
        assert (Ht : holding (p t) = true) by now rewrite H0.
        destruct w; [|destruct Iv as [_ Iv]; now rewrite Iv in Ht].
        destruct Iv as (h0 & [(_ & Iv)|(Io & _)]); [now rewrite Iv in Ht|].
        intros i Hm. cbn [word]. destruct (mark_snoc _ _ _ _ Hm) as [Hm'|[_ [X|X]]];
          [|exfalso; revert X; apply not_touch; auto|discriminate].
        apply seen_write; [|exact I|right; left; reflexivity]. apply (HP i Hm'). right. auto.
    + (* a use of memory *)
      assert (Oe : owners (libs (tr ++ [Use t y w])) = owners (libs tr)) by (rewrite libs_app; cbn; now rewrite app_nil_r).
      assert (Hs : forall h, holder (tr ++ [Use t y w]) s' h -> holder tr s' h) by (intros h; unfold holder; now rewrite Oe).
      destruct (Nat.eq_dec y x) as [->|Hd].
      * assert (Ho : In t (owners (libs tr))) by (eapply (G tr t w []); reflexivity).
        destruct (word s') eqn:Ew; [|destruct Iv as [Iv _]; rewrite Iv in Ho; contradiction].
        destruct Iv as (h0 & [(Io & _)|(Io & _)]); rewrite Io in Ho; [|contradiction]. destruct Ho as [->|[]].
        assert (Hseen : forall i, mark T i -> seen T i t).
        { intros i Hm. specialize (HP i Hm). rewrite Ew in HP. apply HP. now left. }
        split.
        -- intros i Hm. rewrite Ew. intros h Hh. assert (h = t) by (destruct (Hs h Hh) as [E|[E _]]; congruence). subst h.
           destruct (mark_snoc _ _ _ _ Hm) as [Hm'|[-> _]]; [|apply seen_here]. apply seen_app; auto.
        -- apply race_free_on_snoc; auto. intros i u b Hn _ Hb _ _ _. apply Hseen. left. eauto.
      * assert (Ha : ~ touches (if w then @AWr place unit clabel (PUser y) else ARd (PUser y)) (PUser x)).
        { destruct w; intros [[W|[W|W]]|[W|[W|W]]]; congruence. }
        split; [|now apply Q]. eapply passed_quiet; [exact HP|reflexivity|exact Hs| |exact Ha|destruct w; discriminate].
        apply no_write. right. right. exists y. destruct w; auto.
Qed.
End Guard.

(** A place that is used only by goroutines that own the lock has no data race. *)
Theorem C104_guarded : forall x tr T s, runs tr T s -> disciplined (libs tr) -> guarded_by_lock x tr -> race_free_on T (PUser x).
Proof. intros x tr T s H D G. now apply (passed_all x tr T s). Qed.
(** The lock's own word is used through sync/atomic only. *)
Theorem C104_word : forall tr T s, runs tr T s -> race_free_on T PWord.
Proof.
  intros tr T s H. assert (A : forall i t a, nth_error T i = Some (t, a) -> touches a PWord -> atomic a).
  { induction H as [|tr T s l s' H IH St]; [intros [|i]; discriminate|]. intros i t a Hn Ht.
    destruct (Nat.lt_ge_cases i (length T)) as [Hl|Hl]; [rewrite nth_error_app1 in Hn by auto; eauto|].
    rewrite nth_error_app2 in Hn by auto. apply nth_error_In in Hn.
    destruct l as [[| | | | | |? []| |]|? ? []]; cbn in Hn; destruct Hn as [Hn|[]]; injection Hn as <- <-; try exact I;
      destruct Ht as [[W|[W|W]]|[W|[W|W]]]; discriminate. }
  intros i j t u a b _ Hi Hj _ Ha Hb _ Hn. exfalso. apply Hn. eauto.
Qed.
(** What a goroutine did before it called Unlock happens before every later return of Lock, and every later TryLock that
    returned true. *)
Theorem C104_handover : forall tr T s i j t u r, runs tr T s -> disciplined (libs tr) -> i < j ->
  nth_error T i = Some (t, ALab (Lib (SUCall t))) -> nth_error T j = Some (u, ALab (Lib r)) -> r = SLRet u \/ r = STRet u true -> hb T i j.
Proof.
  intros tr T s i j t u r H. revert i j. induction H as [|tr T s l s' H IH St]; intros i j D Hl Hi Hj Hr; [destruct j; discriminate|].
  assert (D' : disciplined (libs tr)).
  { rewrite libs_app in D. destruct l as [l|]; [now apply disciplined_snoc in D|]. cbn in D. now rewrite app_nil_r in D. }
  assert (E1 : exists e, spin_acts s l = [e]) by (destruct l as [[| | | | | |? []| |]|]; cbn; eauto). destruct E1 as (e & E1). rewrite E1 in *.
  destruct (nth_snoc _ _ _ _ Hj) as [Hj'|[-> E]].
  - assert (i < length T) by (apply nth_lt in Hj'; lia). rewrite nth_error_app1 in Hi by auto. apply hb_app, IH; auto.
  - subst e. rewrite nth_error_app1 in Hi by auto. apply seen_next.
    assert (El : l = Lib r).
    { destruct l as [[| | | | | |? []| |]|? ? []]; cbn in E1; try (injection E1; intros; subst; auto; fail); try discriminate. }
    subst l. inversion St as [? ? ? St'|]; subst.
    (* a place that the program does not use *)
    assert (Hx : exists x, forall t w, ~ In (Use t x w) tr).
    { exists (S (list_max (map (fun l => match l with Use _ x _ => x | _ => 0 end) tr))). intros t0 w Hin.
      assert (X : forall k, In k (map (fun l => match l with Use _ x _ => x | _ => 0 end) tr) -> k <= list_max (map (fun l => match l with Use _ x _ => x | _ => 0 end) tr)).
      { pose proof (proj1 (list_max_le (map (fun l => match l with Use _ x _ => x | _ => 0 end) tr) _) (le_n _)) as F. now apply Forall_forall. }
      specialize (X _ (in_map _ _ _ Hin)). cbn in X. lia. }
    destruct Hx as (x & Hx).
    destruct (passed_all x tr T s H D') as [HP _].
    { intros tr1 t0 w tr2 E. exfalso. apply (Hx t0 w). rewrite E. apply in_or_app. right. now left. }
    specialize (HP i (or_intror (ex_intro _ t Hi))).
    assert (Hh : holding (spcs s u) = true).
    { destruct Hr as [->| ->]; inversion St'; subst; cbn; match goal with X : _ u = _ |- _ => now rewrite X end. }
    pose proof (sinv_exec _ _ (runs_exec _ _ _ H) D') as Iv. unfold sinv in Iv.
    destruct (word s); [|destruct Iv as [_ Iv]; now rewrite Iv in Hh].
    apply HP. destruct Iv as (h & [(_ & Iv)|(Io & _)]); [now rewrite Iv in Hh|]. right. auto.
Qed.
Print Assumptions C104_guarded.
Print Assumptions C104_word.
Print Assumptions C104_handover.

(** A run: goroutine 0 locks, writes place 3 and unlocks; goroutine 1 then gets the lock with TryLock and reads place 3. *)
Example C104_ex : exists tr T s, runs tr T s /\ disciplined (libs tr) /\ guarded_by_lock 3 tr /\
  nth_error T 3 = Some (0, AWr (PUser 3)) /\ nth_error T 4 = Some (0, ALab (Lib (SUCall 0))) /\
  nth_error T 9 = Some (1, ALab (Lib (STRet 1 true))) /\ nth_error T 10 = Some (1, ARd (PUser 3)).
Proof.
  assert (H : runs [] [] (SS false (fun _ => SIdle))) by (apply tr_nil; repeat split).
  Ltac go H c := let H' := fresh in let G := fresh in
    (match type of H with traced _ _ _ _ _ ?s => eassert (G : cstep s _ _) by c end); pose proof (tr_snoc _ _ _ _ _ _ _ _ H G) as H'; clear H G; rename H' into H.
  go H ltac:(eapply CLib, SSLCall with (t := 0); reflexivity).
  go H ltac:(eapply CLib, SSLOk with (t := 0); reflexivity).
  go H ltac:(eapply CLib, SSLRet with (t := 0); reflexivity).
  go H ltac:(eapply CUse with (t := 0) (x := 3) (w := true); reflexivity).
  go H ltac:(eapply CLib, SSUCall with (t := 0); reflexivity).
  go H ltac:(eapply CLib, SSStore with (t := 0); reflexivity).
  go H ltac:(eapply CLib, SSURet with (t := 0); reflexivity).
  go H ltac:(eapply CLib, SSTCall with (t := 1); reflexivity).
  go H ltac:(eapply CLib, SSTOk with (t := 1); reflexivity).
  go H ltac:(eapply CLib, SSTRet with (t := 1); reflexivity).
  go H ltac:(eapply CUse with (t := 1) (x := 3) (w := false); reflexivity).
  eexists _, _, _. split; [exact H|]. cbn [app libs]. split; [|split; [|repeat split; reflexivity]].
  - intros tr1 t tr2 E. repeat (destruct tr1 as [|? tr1]; cbn in E; [try discriminate; injection E as <- <-; cbn; auto|injection E as <- E]); destruct tr1; discriminate.
  - intros tr1 t w tr2 E. repeat (destruct tr1 as [|? tr1]; cbn in E; [try discriminate; injection E as <- <- <-; cbn; auto|injection E as <- E]); destruct tr1; discriminate.
Qed.
