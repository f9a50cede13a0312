(** * C110: the traces of Chan are possible *)
From Coq Require Import List Bool Lia Arith.
From Verif Require Import Trans XOnceModel SyncSpec SyncProofs FeasSpec FeasProofs OnceSyncModel.
Import ListNotations.
Open Scope nat_scope.

Section Chan.
Context {V : Type}.
Notation ev := (ev place unit (olabel V)).
Notation runs := (traced (@oinit V) (@chan_step V) (@chan_acts V)).
Definition sending (p : opc V) : bool := match p with OSend _ => true | _ => false end.
Definition closing (p : opc V) : bool := match p with OClose => true | _ => false end.
Definition active (p : opc V) : bool := sending p || closing p.
Record F (T : list ev) (s : ostate V) : Prop := {
  f_fe : feasible T;
  f_new : wrote s = false -> none (ASend tt) T /\ none (AClose tt) T /\ forall t, active (opcs s t) = false;
  f_uniq : forall t u, active (opcs s t) = true -> active (opcs s u) = true -> t = u;
  f_send : forall t, sending (opcs s t) = true -> none (ASend tt) T;
  f_act : forall t, active (opcs s t) = true -> none (AClose tt) T;
  f_cl : closed s = true -> some (AClose tt) T;
  f_buf : buf s = [] /\ (none (ASend tt) T /\ none (ARecv tt) T \/ some (ARecv tt) T) \/ length (buf s) = 1 /\ some (ASend tt) T /\ none (ARecv tt) T;
  f_cnt : counts (puts tt) T 0 /\ counts (gets tt) T 0;
  f_some : none (ASend tt) T -> none (ARecv tt) T /\ buf s = []
}.
Ltac dis := let Q := fresh "Q" in first [discriminate|intros Q; discriminate Q|intros [? Q]; discriminate Q].
Ltac fall := repeat (apply Forall_cons; [cbn [fst snd]; dis|]); try apply Forall_nil.
Ltac ex := first [apply Exists_cons_hd; reflexivity|apply Exists_cons_tl; ex].
Ltac noneT := apply none_app; [assumption|fall].
Lemma touch_mem : forall (a : act place unit (olabel V)) (T : list ev) t, feasible T -> a = AtCas PWrote \/ a = AtRd PWrote -> feasible (T ++ [(t, a)]).
Proof. intros a T t H [->| ->]; (apply fe_one; [auto|]); apply m_mem with PWrote; unfold touches, reads, writes; auto. Qed.
Lemma none_pre : forall (a : act place unit (olabel V)) T E, none a (T ++ E) -> none a T.
Proof. intros a T E H. unfold none in *. rewrite Forall_app in H. apply H. Qed.
(** A step that does not touch the channel *)
Definition calm (e : ev) : Prop := snd e <> ASend tt /\ snd e <> AClose tt /\ snd e <> ARecv tt /\ ~ puts tt (snd e) /\ ~ gets tt (snd e).
Lemma F_calm : forall T E w w' b c p p', F T (OS w b c p) -> Forall calm E -> feasible (T ++ E) -> (w' = false -> w = false) ->
  (forall t, (active (p' t) = true -> active (p t) = true) /\ (sending (p' t) = true -> sending (p t) = true)) -> F (T ++ E) (OS w' b c p').
Proof.
  intros T E w w' b c p p' [Fe Fn Fu Fs Fa Fc Fb [F1 F2] Fm] HE Fe' Hw Hp. cbn [wrote buf closed opcs] in *.
  assert (C : forall P : ev -> Prop, (forall e, calm e -> P e) -> Forall P E) by (intros P HP; eapply Forall_impl; [|exact HE]; auto).
  assert (NS : none (ASend tt) T -> none (ASend tt) (T ++ E)) by (intros; apply none_app; [auto|]; apply C; unfold calm; tauto).
  assert (NC : none (AClose tt) T -> none (AClose tt) (T ++ E)) by (intros; apply none_app; [auto|]; apply C; unfold calm; tauto).
  assert (NR : none (ARecv tt) T -> none (ARecv tt) (T ++ E)) by (intros; apply none_app; [auto|]; apply C; unfold calm; tauto).
  constructor; cbn [wrote buf closed opcs].
  - auto.
  - intros X. destruct (Fn (Hw X)) as (A & B & D). split; [auto|split; [auto|]]. intros t. destruct (active (p' t)) eqn:Q; auto. apply Hp in Q. rewrite D in Q. discriminate.
  - intros t u A B. apply Fu; now apply Hp.
  - intros t A. apply NS, (Fs t). now apply Hp.
  - intros t A. apply NC, (Fa t). now apply Hp.
  - intros A. apply some_app; auto.
  - destruct Fb as [(A & [[B D]|B])|(A & B & D)]; [left; auto|left; split; auto; right; now apply some_app|right]. split; [auto|split; [now apply some_app|auto]].
  - split; (apply cnt_quiet; [auto|]); apply C; unfold calm; tauto.
  - intros A. apply none_pre in A. destruct (Fm A). auto.
Qed.
Ltac calmly := repeat (apply Forall_cons; [unfold calm; cbn [snd]; repeat split; dis|]); try apply Forall_nil.
Ltac ups := let u9 := fresh in intros u9; unfold upd; match goal with |- context [Nat.eqb ?a u9] => destruct (Nat.eqb_spec a u9) as [<-|] end; [|auto];
  cbn; first [split; intros Q9; discriminate Q9|auto].

Lemma F_all : forall tr T s, runs tr T s -> F T s.
Proof.
  apply (traced_ind_inv (@oinit V) (@chan_step V) (@chan_acts V) (fun _ T s => F T s)).
  - intros s (A & B & C & D). constructor; rewrite ?A, ?B, ?C; try (repeat constructor; fail); try discriminate.
    + split; [constructor|split; [constructor|]]. intros t. now rewrite D.
    + intros t u. rewrite D. discriminate.
  - intros tr T s [l r] s' _ FF St. unfold chan_step in St. cbn [fst] in St. unfold chan_acts. cbn [fst snd].
    destruct St; cbn [opcs].
    + eapply F_calm; [exact FF|calmly|apply fe_one; [apply FF|apply m_lab]|auto|ups].
    + (* the winner *)
      pose proof FF as [Fe Fn Fu Fs Fa Fc Fb [F1 F2] Fm]. cbn [wrote buf closed opcs] in *. destruct (Fn eq_refl) as (N1 & N2 & N3). destruct (Fm N1) as [N4 N5].
      constructor; cbn [wrote buf closed opcs].
      * apply touch_mem; auto.
      * discriminate.
      * intros t1 t2. unfold upd. destruct (Nat.eqb_spec t t1), (Nat.eqb_spec t t2); subst; auto; rewrite N3; intros; try discriminate.
      * intros. noneT.
      * intros. noneT.
      * intros. apply some_app. auto.
      * left. split; auto. left. split; noneT.
      * split; (apply cnt_quiet; [auto|fall]).
      * intros _. split; [noneT|auto].
    + eapply F_calm; [exact FF|calmly|apply touch_mem; [apply FF|auto]|auto|ups].
    + (* the send *)
      rewrite H. pose proof FF as [Fe Fn Fu Fs Fa Fc Fb [F1 F2] Fm]. cbn [wrote buf closed opcs] in *.
      assert (N1 : none (ASend tt) T) by (apply (Fs t); now rewrite H). assert (N2 : none (AClose tt) T) by (apply (Fa t); now rewrite H). destruct (Fm N1) as [N4 N5].
      constructor; cbn [wrote buf closed opcs].
      * apply fe_one; [auto|now apply m_send].
      * intros X. destruct (Fn X) as (_ & _ & Y). specialize (Y t). rewrite H in Y. discriminate.
      * intros t1 t2 A B. apply Fu; [revert A|revert B]; unfold upd; [destruct (Nat.eqb_spec t t1)|destruct (Nat.eqb_spec t t2)]; subst; auto; now rewrite H.
      * intros t1. unfold upd. destruct (Nat.eqb_spec t t1) as [E|E]; [discriminate|]. intros A. exfalso. apply E. apply Fu; [now rewrite H|]. unfold active. now rewrite A.
      * intros _ _. noneT.
      * discriminate.
      * right. subst b. split; [reflexivity|]. split; [apply some_in; ex|noneT].
      * split; (apply cnt_quiet; [auto|fall]).
      * intros A. exfalso. unfold none in A. rewrite Forall_app in A. destruct A as [_ A]. inversion A. cbn in *. congruence.
    + rewrite app_nil_r. replace T with (T ++ []) by apply app_nil_r. eapply F_calm; [exact FF|calmly|rewrite app_nil_r; apply FF|auto|ups].
    + (* the close *)
      rewrite H. pose proof FF as [Fe Fn Fu Fs Fa Fc Fb [F1 F2] Fm]. cbn [wrote buf closed opcs] in *.
      assert (N2 : none (AClose tt) T) by (apply (Fa t); now rewrite H).
      assert (ND : forall u, active (upd p t (ORet true) u) = false).
      { intros u. unfold upd. destruct (Nat.eqb_spec t u) as [E|E]; auto. destruct (active (p u)) eqn:A; auto. exfalso. apply E. apply Fu; auto. now rewrite H. }
      constructor; cbn [wrote buf closed opcs].
      * apply fe_one; [auto|now apply m_close].
      * intros X. destruct (Fn X) as (_ & _ & Y). specialize (Y t). rewrite H in Y. discriminate.
      * intros t1 t2. rewrite ND. discriminate.
      * intros t1 A. specialize (ND t1). unfold active in ND. rewrite A in ND. discriminate.
      * intros t1. rewrite ND. discriminate.
      * intros _. apply some_in; ex.
      * destruct Fb as [(A & [[B D]|B])|(A & B & D)]; [left; split; auto; left; split; noneT|left; split; auto; right; now apply some_app|right]. split; [auto|split; [now apply some_app|noneT]].
      * split; (apply cnt_quiet; [auto|fall]).
      * intros A. apply none_pre in A. destruct (Fm A). split; [noneT|auto].
    + rewrite app_nil_r. replace T with (T ++ []) by apply app_nil_r. eapply F_calm; [exact FF|calmly|rewrite app_nil_r; apply FF|auto|ups].
    + eapply F_calm; [exact FF|calmly|apply fe_one; [apply FF|apply m_lab]|auto|ups].
    + (* a receive *)
      pose proof FF as [Fe Fn Fu Fs Fa Fc Fb [F1 F2] Fm]. cbn [wrote buf closed opcs] in *.
      destruct Fb as [(A & _)|(A & B & D)]; [discriminate|]. assert (b = []) as -> by (destruct b; [auto|discriminate]).
      assert (HS : forall T' : list ev, none (ASend tt) (T ++ T') -> False).
      { intros T' A'. apply none_pre in A'. destruct (Fm A'). discriminate. }
      constructor; cbn [wrote buf closed opcs].
      * apply fe_two; [auto|now apply m_recv|apply m_lab].
      * intros X. destruct (Fn X) as (Y & Z & U). split; [noneT|split; [noneT|auto]].
      * auto.
      * intros t1 Q. specialize (Fs t1 Q). noneT.
      * intros t1 Q. specialize (Fa t1 Q). noneT.
      * intros Q. apply some_app; auto.
      * left. split; [auto|]. right. apply some_in. ex.
      * split; (apply cnt_quiet; [auto|fall]).
      * intros Q. exfalso. eauto.
    + (* the channel is closed and empty *)
      pose proof FF as [Fe Fn Fu Fs Fa Fc Fb [F1 F2] Fm]. cbn [wrote buf closed opcs] in *.
      assert (HE : feasible (T ++ [(r, AEnd tt); (r, ALab (ORecv None))])).
      { apply fe_two; [auto|apply m_end with 0; auto|apply m_lab]. destruct Fb as [(_ & [[B D]|B])|(A & _)]; [now left|now right|discriminate]. }
      eapply F_calm; [exact FF|calmly|exact HE|auto|auto].
Qed.
(** C110: the traces that C105 is about can be: at most one value is sent on the channel, it is received once and after that,
    the channel is closed at most once, after the send, and its end is seen when it is closed and empty. *)
Theorem C110_chan : forall tr T s, runs tr T s -> feasible T.
Proof. intros tr T s R. exact (f_fe _ _ (F_all _ _ _ R)). Qed.
End Chan.
Print Assumptions C110_chan.
