(** * A goroutine that may end before it has read all its input: proofs *)
From Coq Require Import List Bool Arith ZArith Lia.
From Verif Require Import Trans NetModel NetSpec NetProofs XStreamModel XStreamSpec XPanicModel.
Import ListNotations.
Open Scope nat_scope.

Section Quit.
Context {V E : Type}.
Notation proc := (proc V E). Notation act := (act V E). Notation nlabel := (nlabel V E). Notation stage := (stage V E).

(** Big-step run that leaves [rest] unread; [z]: closed its channel *)
Inductive evq : bool -> proc -> list V -> list act -> list V -> bool -> Prop :=
| eq_send : forall v p xs es r z, evq false p xs es r z -> evq false (PSend v p) xs (AcS v :: es) r z
| eq_recv : forall cl k x xs es r z, evq cl (k (Some x)) xs es r z -> evq cl (PRecv k) (x :: xs) (AcR (Some x) :: es) r z
| eq_rend : forall cl k es r z, evq cl (k None) [] es r z -> evq cl (PRecv k) [] (AcR None :: es) r z
| eq_close : forall p xs es r z, evq true p xs es r z -> evq false (PClose p) xs (AcX :: es) r z
| eq_call : forall cl e p xs es r z, evq cl p xs es r z -> evq cl (PCall e p) xs (AcC e :: es) r z
| eq_stop : forall cl xs, evq cl PEnd xs [] xs cl.

Lemma evq_true : forall p xs es r z, evq true p xs es r z -> z = true /\ outs es = [].
Proof. intros p xs es r z H. remember true as cl. induction H; try discriminate; subst; cbn; auto. Qed.
Lemma evq_len : forall c p xs es r z, evq c p xs es r z -> length r <= length xs.
Proof. induction 1; cbn in *; lia. Qed.

Lemma evq_frob : forall cl p xs es r z, evq cl (frob p) xs es r z -> evq cl p xs es r z.
Proof. intros cl p xs es r z H. now rewrite <- frob_eq in H. Qed.

(** The steps of a chain of two goroutines *)
Inductive step2 : stage -> stage -> nlabel -> stage -> stage -> Prop :=
| s2_send1 : forall v p n b t, length b < n -> step2 (PSend v p, Ch n b false) t (TSend 0 v) (p, Ch n (b ++ [v]) false) t
| s2_send2 : forall v p n b t, length b < n -> step2 t (PSend v p, Ch n b false) (TSend 1 v) t (p, Ch n (b ++ [v]) false)
| s2_hand : forall v p k c, step2 (PSend v p, Ch 0 [] false) (PRecv k, c) (THand 0 v) (p, Ch 0 [] false) (k (Some v), c)
| s2_recv : forall q n v b cl k c, step2 (q, Ch n (v :: b) cl) (PRecv k, c) (TRecv 1 (Some v)) (q, Ch n b cl) (k (Some v), c)
| s2_rend : forall q n k c, step2 (q, Ch n [] true) (PRecv k, c) (TRecv 1 None) (q, Ch n [] true) (k None, c)
| s2_rend0 : forall k c t, step2 (PRecv k, c) t (TRecv 0 None) (k None, c) t
| s2_close1 : forall p n b t, step2 (PClose p, Ch n b false) t (TClose 0) (p, Ch n b true) t
| s2_close2 : forall p n b t, step2 t (PClose p, Ch n b false) (TClose 1) t (p, Ch n b true)
| s2_call1 : forall e p c t, step2 (PCall e p, c) t (TCall 0 e) (p, c) t
| s2_call2 : forall e p c t, step2 t (PCall e p, c) (TCall 1 e) t (p, c)
| s2_out : forall q n v b cl t, step2 t (q, Ch n (v :: b) cl) (TOut v) t (q, Ch n b cl)
| s2_outh : forall v p t, step2 t (PSend v p, Ch 0 [] false) (TOutH 1 v) t (p, Ch 0 [] false)
| s2_outend : forall q n t, step2 t (q, Ch n [] true) TOutEnd t (q, Ch n [] true).

Lemma step2_inv : forall a b l s, nstep [a; b] l s -> exists a' b', s = [a'; b'] /\ step2 a b l a' b'.
Proof.
  intros a b l s H. remember [a; b] as s0 eqn:Es. destruct H.
  all: try (destruct l as [|? [|? [|? l]]]; cbn in Es; try discriminate Es; injection Es as; subst; cbn [app length];
    try (eexists _, _; split; [reflexivity|]; constructor; assumption);
    try (eexists _, _; split; [reflexivity|]; constructor)).
  injection Es as; subst. eexists _, _; split; [reflexivity|]; constructor.
Qed.
Lemma step2_nstep : forall a b l a' b', step2 a b l a' b' -> nstep [a; b] l [a'; b'].
Proof.
  destruct 1.
  - now apply (NSend []).
  - now apply (NSend [t] p v n b []).
  - apply (NHand []).
  - apply (NRecv []).
  - apply (NRecvEnd []).
  - apply NRecv0.
  - apply (NClose []).
  - apply (NClose [t] p n b []).
  - apply (NCall []).
  - apply (NCall [t] e p c []).
  - apply (NOut [t]).
  - apply (NOutHand [t]).
  - apply (NOutEnd [t]).
Qed.

Variable xs : list V.
Variable p : proc.
Variables (es : list act) (rest : list V) (z : bool).
Hypothesis Hp : evq false p xs es rest z.
Definition qstate (n m : nat) (dl : list V) (ac : list act) (k : nat) (s1 s2 : stage) : Prop :=
  exists src b1 c1 q b2 c2 rs es',
    s1 = (src, Ch n b1 c1) /\ s2 = (q, Ch m b2 c2) /\ length b1 <= n /\ length b2 <= m /\
    ((src = sends rs (PClose PEnd) /\ c1 = false) \/ (src = PEnd /\ c1 = true /\ rs = [])) /\
    evq c2 q (b1 ++ rs) es' rest z /\ outs es = dl ++ b2 ++ outs es' /\ es = ac ++ es' /\
    k + (2 * length rs + (if c1 then 0 else 1) + 2 * length es' + length b2) <= 2 * length xs + 1 + 2 * length es.

Lemma qstate_step : forall n m dl ac k s1 s2 l s1' s2', qstate n m dl ac k s1 s2 -> step2 s1 s2 l s1' s2' ->
  qstate n m (dl ++ out_of l) (ac ++ ev_of 1 l) (k + (if is_outend l then 0 else 1)) s1' s2'.
Proof.
  intros n m dl ac k s1 s2 l s1' s2' (src & b1 & c1 & q & b2 & c2 & rs & es' & -> & -> & L1 & L2 & Hsrc & Hq & Ho & Ha & Lc) St.
  inversion St; subst; clear St; cbn [out_of is_outend ev_of Nat.eqb]; rewrite ?app_nil_r.
  - destruct Hsrc as [[Hs _]|[Hs _]]; [|discriminate]. destruct rs as [|r rs]; [discriminate|]. injection Hs as -> ->.
    eexists _, _, _, _, _, _, rs, es'. split; [reflexivity|]. split; [reflexivity|]. split; [rewrite app_length; cbn; lia|]. split; [auto|].
    split; [left; split; reflexivity|]. split; [rewrite <- app_assoc; exact Hq|]. split; [auto|]. split; [auto|]. cbn [length] in Lc |- *; try destruct c1; lia.
  - inversion Hq; subst.
    eexists _, _, _, _, _, _, rs, _. split; [reflexivity|]. split; [reflexivity|]. split; [auto|]. split; [rewrite app_length; cbn; lia|].
    split; [exact Hsrc|]. split; [eassumption|]. split; [rewrite Ho; cbn; now rewrite <- !app_assoc|]. split; [now rewrite <- app_assoc|].
    rewrite app_length. cbn [length] in Lc |- *. lia.
  - destruct Hsrc as [[Hs _]|[Hs _]]; [|discriminate]. destruct rs as [|r rs]; [discriminate|]. injection Hs as -> ->.
    cbn [app] in Hq. inversion Hq; subst.
    eexists _, _, _, _, _, _, rs, _. split; [reflexivity|]. split; [reflexivity|]. split; [auto|]. split; [auto|].
    split; [left; split; reflexivity|]. split; [eassumption|]. split; [exact Ho|]. split; [now rewrite <- app_assoc|]. cbn [length] in Lc |- *; try destruct c1; lia.
  - cbn [app] in Hq. inversion Hq; subst.
    eexists _, _, _, _, _, _, rs, _. split; [reflexivity|]. split; [reflexivity|]. split; [cbn in L1; lia|]. split; [auto|].
    split; [exact Hsrc|]. split; [eassumption|]. split; [exact Ho|]. split; [now rewrite <- app_assoc|]. cbn [length] in Lc |- *; try destruct c1; lia.
  - destruct Hsrc as [[_ Hc]|[-> [_ ->]]]; [discriminate|]. cbn [app] in Hq. inversion Hq; subst.
    eexists _, _, _, _, _, _, [], _. split; [reflexivity|]. split; [reflexivity|]. split; [auto|]. split; [auto|].
    split; [right; auto|]. split; [eassumption|]. split; [exact Ho|]. split; [now rewrite <- app_assoc|]. cbn [length] in Lc |- *; try destruct c1; lia.
  - destruct Hsrc as [[Hs _]|[Hs _]]; [destruct rs; discriminate|discriminate].
  - destruct Hsrc as [[Hs _]|[Hs _]]; [|discriminate]. destruct rs as [|r rs]; [|discriminate]. injection Hs as ->.
    eexists _, _, _, _, _, _, [], es'. split; [reflexivity|]. split; [reflexivity|]. split; [auto|]. split; [auto|].
    split; [right; auto|]. split; [exact Hq|]. split; [exact Ho|]. split; [auto|]. cbn [length] in Lc |- *; try destruct c1; lia.
  - inversion Hq; subst.
    eexists _, _, _, _, _, _, rs, _. split; [reflexivity|]. split; [reflexivity|]. split; [auto|]. split; [auto|].
    split; [exact Hsrc|]. split; [eassumption|]. split; [exact Ho|]. split; [now rewrite <- app_assoc|]. cbn [length] in Lc |- *; try destruct c1; lia.
  - destruct Hsrc as [[Hs _]|[Hs _]]; [destruct rs; discriminate|discriminate].
  - inversion Hq; subst.
    eexists _, _, _, _, _, _, rs, _. split; [reflexivity|]. split; [reflexivity|]. split; [auto|]. split; [auto|].
    split; [exact Hsrc|]. split; [eassumption|]. split; [exact Ho|]. split; [now rewrite <- app_assoc|]. cbn [length] in Lc |- *; try destruct c1; lia.
  - eexists _, _, _, _, _, _, rs, es'. split; [reflexivity|]. split; [reflexivity|]. split; [auto|]. split; [cbn in L2; lia|].
    split; [exact Hsrc|]. split; [exact Hq|]. split; [rewrite Ho; now rewrite <- app_assoc|]. split; [auto|]. cbn [length] in Lc |- *; try destruct c1; lia.
  - inversion Hq; subst.
    eexists _, _, _, _, _, _, rs, _. split; [reflexivity|]. split; [reflexivity|]. split; [auto|]. split; [auto|].
    split; [exact Hsrc|]. split; [eassumption|]. split; [rewrite Ho; cbn; now rewrite <- app_assoc|]. split; [now rewrite <- app_assoc|]. cbn [length] in Lc |- *. lia.
  - eexists _, _, _, _, _, _, rs, es'. split; [reflexivity|]. split; [reflexivity|]. split; [auto|]. split; [auto|].
    split; [exact Hsrc|]. split; [exact Hq|]. split; [exact Ho|]. split; [auto|]. cbn [length] in Lc |- *; try destruct c1; lia.
Qed.

Variables n m : nat.
Notation ps := [(source xs, n); (p, m)].

Lemma qreach : forall tr s, steps nstep (start ps) tr s -> exists s1 s2, s = [s1; s2] /\
  qstate n m (delivered tr) (acts 1 tr) (length (filter (fun l => negb (is_outend l)) tr)) s1 s2.
Proof.
  intros tr s R. induction R as [|tr s1 l s2 R IH St].
  - eexists _, _. split; [reflexivity|]. eexists _, [], false, p, [], false, xs, es. cbn [fst snd].
    split; [reflexivity|]. split; [reflexivity|]. split; [cbn; lia|]. split; [cbn; lia|]. split; [left; split; auto|].
    split; [exact Hp|]. split; [reflexivity|]. split; [reflexivity|]. cbn. lia.
  - destruct IH as (a & b & -> & Q). apply step2_inv in St. destruct St as (a' & b' & -> & St).
    exists a', b'. split; auto. unfold delivered, acts. rewrite !flat_map_app, filter_app, app_length.
    pose proof (qstate_step _ _ _ _ _ _ _ _ _ _ Q St) as Q'. unfold delivered, acts in Q'. cbn [flat_map filter]. rewrite !app_nil_r.
    destruct (is_outend l); exact Q'.
Qed.

Lemma quit_bound : forall tr s, steps nstep (start ps) tr s ->
  length (filter (fun l => negb (is_outend l)) tr) <= 2 * length xs + 1 + 2 * length es.
Proof.
  intros tr s R. destruct (qreach _ _ R) as (a & b & _ & Q). destruct Q as (? & ? & c1 & ? & ? & ? & ? & ? & Q). destruct Q as (_ & _ & _ & _ & _ & _ & _ & _ & L).
  lia.
Qed.

Lemma quit_safe : forall tr s, steps nstep (start ps) tr s ->
  Forall (fun st => ~ faulty st) s /\ prefix (delivered tr) (outs es) /\ prefix (acts 1 tr) es /\
  (forall s', nstep s TOutEnd s' -> z = true /\ delivered tr = outs es) /\
  (n < length rest -> ~ Forall ended s).
Proof.
  intros tr s R. destruct (qreach _ _ R) as (a & b & -> & Q).
  destruct Q as (src & b1 & c1 & q & b2 & c2 & rs & es' & -> & -> & L1 & L2 & Hsrc & Hq & Ho & Ha & _).
  repeat split.
  - constructor; [|constructor; [|constructor]].
    + destruct Hsrc as [[-> ->]|[-> _]]; [|cbn; auto]. destruct rs; cbn; discriminate.
    + inversion Hq; subst; cbn; intros Hf; try discriminate; auto.
  - eexists. exact Ho.
  - eexists. exact Ha.
  - apply step2_inv in H. destruct H as (? & ? & _ & St). inversion St; subst. now apply evq_true in Hq.
  - apply step2_inv in H. destruct H as (? & ? & _ & St). inversion St; subst. apply evq_true in Hq. destruct Hq as [_ Hq].
    rewrite Ho, Hq. cbn. now rewrite app_nil_r.
  - intros Hn Hf. inversion Hf as [|? ? E1 _]; subst. unfold ended in E1; cbn in E1.
    destruct Hsrc as [[-> _]|[_ [_ ->]]]; [destruct rs; discriminate|]. apply evq_len in Hq. rewrite app_length in Hq. cbn in Hq. lia.
Qed.

Lemma quit_live : forall tr s, steps nstep (start ps) tr s ->
  (exists l s', l <> TOutEnd /\ nstep s l s') \/
  (delivered tr = outs es /\ acts 1 tr = es /\ (z = true -> nstep s TOutEnd s) /\ (length rest <= n -> Forall ended s)).
Proof.
  intros tr s R. destruct (qreach _ _ R) as (a & b & -> & Q).
  destruct Q as (src & b1 & c1 & q & b2 & c2 & rs & es' & -> & -> & L1 & L2 & Hsrc & Hq & Ho & Ha & _).
  assert (G : forall l a b, l <> TOutEnd -> step2 (src, Ch n b1 c1) (q, Ch m b2 c2) l a b ->
    (exists l s', l <> TOutEnd /\ nstep [(src, Ch n b1 c1); (q, Ch m b2 c2)] l s')).
  { intros l a b Hl St. eexists _, _. split; [exact Hl|]. apply step2_nstep. exact St. }
  destruct b2 as [|v b2]; [|left; eapply G; [|apply s2_out]; discriminate].
  destruct q as [k|v q|q|e q| |].
  - left. destruct b1 as [|v b1].
    + destruct Hsrc as [[-> ->]|[-> [-> ->]]].
      * destruct rs as [|v rs]; [eapply G; [|apply s2_close1]; discriminate|]. cbn [sends] in *.
        destruct (Nat.eq_dec n 0) as [->|N]; [eapply G; [|apply s2_hand]; discriminate|].
        eapply G; [|apply s2_send1; cbn; lia]; discriminate.
      * eapply G; [|apply s2_rend]; discriminate.
    + eapply G; [|apply s2_recv]; discriminate.
  - left. inversion Hq; subst. destruct (Nat.eq_dec m 0) as [->|N]; [eapply G; [|apply s2_outh]; discriminate|].
    eapply G; [|apply s2_send2; cbn; lia]; discriminate.
  - left. inversion Hq; subst. eapply G; [|apply s2_close2]; discriminate.
  - left. eapply G; [|apply s2_call2]; discriminate.
  - inversion Hq; subst. cbn [outs flat_map app] in *. rewrite ?app_nil_r in *.
    destruct Hsrc as [[-> ->]|[-> [-> ->]]].
    + destruct rs as [|v rs]; [left; eapply G; [|apply s2_close1]; discriminate|]. cbn [sends] in *.
      destruct (Nat.lt_ge_cases (length b1) n) as [N|N]; [left; eapply G; [|apply s2_send1; exact N]; discriminate|].
      right. split; [now rewrite Ho|]. split; [auto|]. split; [intros ->; apply step2_nstep; apply s2_outend|].
      rewrite app_length. cbn [length]. lia.
    + right. split; [now rewrite Ho|]. split; [auto|]. split; [intros ->; apply step2_nstep; apply s2_outend|].
      intros _. repeat constructor.
  - inversion Hq.
Qed.
End Quit.

Section Ops.
Context {A : Type}.
Notation item := (item A). Notation P := (proc item (call A)).

Definition keyed (f : item -> option nat) (y : item) : nat := match f y with Some k => k | None => 0 end.

Lemma distinct_p_ev : forall (f : item -> option nat) x post pre u earlier, 
  (forall y, In y pre -> f y <> None) -> f x = None ->
  (forall k, mem k u = existsb (fun y => keyed f y =? k) earlier) ->
  exists es, evq false (distinct_p f u) (pre ++ x :: post) es post true /\ outs es = firsts (keyed f) earlier pre.
Proof.
  intros f x post. induction pre as [|y pre IH]; intros u earlier Hpre Hx Hu.
  - eexists. cbn [app]. split.
    + apply evq_frob; cbn [frob distinct_p]. apply eq_recv. rewrite Hx. apply eq_close. apply eq_stop.
    + reflexivity.
  - destruct (f y) as [k|] eqn:Fy; [|exfalso; apply (Hpre y); [left; auto|exact Fy]].
    cbn [app firsts].
    assert (Ky : keyed f y = k) by (unfold keyed; now rewrite Fy).
    destruct (mem k u) eqn:M.
    + destruct (IH u (earlier ++ [y])) as (es & H1 & H2); auto.
      { intros; apply Hpre; now right. }
      { intros k'. rewrite existsb_app, <- Hu. cbn. rewrite orb_false_r. rewrite Ky.
        destruct (Nat.eqb_spec k k') as [->|]; [rewrite M; auto|now rewrite orb_false_r]. }
      eexists. split; [apply evq_frob; cbn [frob distinct_p]; apply eq_recv; rewrite Fy, M; cbn [negb]; exact H1|]. cbn [outs flat_map].
      rewrite Ky, <- Hu, M. exact H2.
    + destruct (IH (k :: u) (earlier ++ [y])) as (es & H1 & H2); auto.
      { intros; apply Hpre; now right. }
      { intros k'. rewrite existsb_app, <- Hu. cbn. rewrite orb_false_r. rewrite Ky, Nat.eqb_sym. apply orb_comm. }
      eexists. split; [apply evq_frob; cbn [frob distinct_p]; apply eq_recv; rewrite Fy, M; cbn [negb]; apply eq_send; exact H1|]. cbn [outs flat_map].
      rewrite Ky, <- Hu, M. cbn. f_equal. exact H2.
Qed.

Lemma peek_p_ev : forall (ok : item -> bool) x post pre, (forall y, In y pre -> ok y = true) -> ok x = false ->
  evq false (peek_p ok) (pre ++ x :: post) (flat_map (fun y => [AcR (Some y); AcS y; AcC (CallF y)]) (pre ++ [x])) post false.
Proof.
  intros ok x post. induction pre as [|y pre IH]; intros Hpre Hx; apply evq_frob; cbn [frob peek_p]; cbn [app flat_map].
  - apply eq_recv. apply eq_send. apply eq_call. rewrite Hx. apply eq_stop.
  - apply eq_recv. apply eq_send. apply eq_call. rewrite (Hpre y) by now left. apply IH; auto. intros; apply Hpre; now right.
Qed.

Lemma distinct_p_total : forall (f : item -> option nat) (key : item -> nat) xs u es,
  (forall y, In y xs -> f y = Some (key y)) -> ev true false (distinct key u) xs es -> ev true false (distinct_p f u) xs es.
Proof.
  intros f key. induction xs as [|x xs IH]; intros u es Hf H; rewrite (frob_eq (distinct key u)) in H; cbn [frob distinct] in H;
    inversion H; subst; clear H; rewrite (frob_eq (distinct_p f u)); cbn [frob distinct_p]; [apply ev_rend; assumption|].
  apply ev_recv. rewrite (Hf x) by now left. destruct (negb (mem (key x) u)) eqn:M.
  - inversion H5; subst. apply ev_send. apply IH; auto. intros; apply Hf; now right.
  - apply IH; auto. intros; apply Hf; now right.
Qed.
Lemma peek_p_total : forall (ok : item -> bool) xs, (forall y, In y xs -> ok y = true) ->
  ev true false (peek_p ok) xs (flat_map (fun x => [AcR (Some x); AcS x; AcC (CallF x)]) xs ++ [AcR None; AcX]).
Proof.
  intros ok. induction xs as [|x xs IH]; intros H; rewrite (frob_eq (peek_p ok)); cbn [frob peek_p]; cbn [flat_map app].
  - apply ev_rend. apply ev_close. apply ev_stop. auto.
  - apply ev_recv. apply ev_send. apply ev_call. rewrite (H x) by now left. apply IH. intros; apply H; now right.
Qed.
End Ops.
