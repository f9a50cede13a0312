(** * Chains of goroutines are schedule independent: proofs *)
From Coq Require Import List Bool Arith Lia.
From Verif Require Import Trans NetModel NetSpec.
Import ListNotations.

Section Proofs.
Context {V E : Type}.
Notation proc := (proc V E). Notation stage := (stage V E). Notation chan := (chan V). Notation nlabel := (nlabel V E).

Notation act := (act V E).

(** Big-step run of one goroutine on a complete input: its whole list of actions;
    nd: it must have closed its channel before ending. *)
Inductive ev (nd : bool) : bool -> proc -> list V -> list act -> Prop :=
| ev_send : forall v p xs es, ev nd false p xs es -> ev nd false (PSend v p) xs (AcS v :: es)
| ev_recv : forall cl k x xs es, ev nd cl (k (Some x)) xs es -> ev nd cl (PRecv k) (x :: xs) (AcR (Some x) :: es)
| ev_rend : forall cl k es, ev nd cl (k None) [] es -> ev nd cl (PRecv k) [] (AcR None :: es)
| ev_close : forall p xs es, ev nd true p xs es -> ev nd false (PClose p) xs (AcX :: es)
| ev_call : forall cl e p xs es, ev nd cl p xs es -> ev nd cl (PCall e p) xs (AcC e :: es)
| ev_stop : forall cl, (nd = true -> cl = true) -> ev nd cl PEnd [] [].

Lemma ev_det : forall nd cl p xs es, ev nd cl p xs es -> forall es', ev nd cl p xs es' -> es = es'.
Proof.
  induction 1; intros es' H'; inversion H'; subst; auto; f_equal; auto.
Qed.

(** The remaining work of a chain suffix fed with xs: per stage the events still to come;
    [out] is what the environment will still receive after the last buffer. *)
Fixpoint wf (nd : bool) (ss : list stage) (xs : list V) (ess : list (list act)) (m : nat) (out : list V) : Prop :=
  match ss, ess with
  | [], [] => m = length xs /\ out = xs
  | (p, Ch n b cl) :: r, es :: ess' =>
      exists m', ev (match r with [] => nd | _ => true end) cl p xs es /\ length b <= n /\
                   wf nd r (b ++ outs es) ess' m' out /\ m = length es + m'
  | _, _ => False
  end.

Lemma ev_closed_outs : forall nd p xs es, ev nd true p xs es -> outs es = [].
Proof. intros nd p xs es H. remember true as cl. induction H; try discriminate; cbn; auto. Qed.

(** the whole set of events: what stage i did, then what it will do *)
Fixpoint addev (i : nat) (l : nlabel) (ess : list (list act)) : list (list act) :=
  match ess with [] => [] | es :: r => (ev_of i l ++ es) :: addev (S i) l r end.

Lemma addev_none : forall ess i l, (forall j, ev_of j l = []) -> addev i l ess = ess.
Proof. induction ess as [|es r IH]; intros i l H; cbn; auto. rewrite H, IH; auto. Qed.
Lemma addev_lt : forall ess i l, (forall k, i <= k -> ev_of k l = []) -> addev i l ess = ess.
Proof.
  induction ess as [|es r IH]; intros i l H; cbn; auto. rewrite H by lia. rewrite IH; auto. intros; apply H; lia.
Qed.

Lemma wf_len : forall nd l xs e m ys, wf nd l xs e m ys -> length ys <= m.
Proof.
  intros nd. induction l as [|[p [n b cl]] l IH]; intros xs [|es e] m ys H; cbn in H; try contradiction.
  - destruct H as [-> ->]; lia.
  - destruct H as (m' & _ & _ & H & ->). apply IH in H. lia.
Qed.

Lemma wf_app : forall nd l r xs ess m out, r <> [] ->
  wf nd (l ++ r) xs ess m out <->
  exists e1 e2 m1 m2 ys, ess = e1 ++ e2 /\ length e1 = length l /\ m = m1 + m2 /\
    wf true l xs e1 (m1 + length ys) ys /\ wf nd r ys e2 m2 out.
Proof.
  intros nd l r. induction l as [|[p [n b cl]] l IH]; intros xs ess m out Hr.
  - cbn [app]. split.
    + intros H. exists [], ess, 0, m, xs. cbn. auto 10.
    + intros (e1 & e2 & m1 & m2 & ys & -> & L & -> & W1 & W2). destruct e1; [|discriminate]. cbn in W1. destruct W1 as [Hm ->].
      assert (m1 = 0) by lia. subst m1. exact W2.
  - cbn [app]. split.
    + intros H. destruct ess as [|es ess]; [contradiction|]. cbn in H. destruct H as (m' & Hev & Hl & Hw & ->).
      apply IH in Hw; auto. destruct Hw as (e1 & e2 & m1 & m2 & ys & -> & L & -> & W1 & W2).
      exists (es :: e1), e2, (length es + m1), m2, ys. repeat split; auto; try (cbn; lia).
      cbn. exists (m1 + length ys). repeat split; auto; try lia.
      destruct l; cbn in *; auto. destruct r; [congruence|exact Hev].
    + intros (e1 & e2 & m1 & m2 & ys & -> & L & -> & W1 & W2). destruct e1 as [|es e1]; [discriminate|].
      cbn in W1. destruct W1 as (m' & Hev & Hl & Hw & Hm). cbn.
      assert (HM : exists q, m' = q + length ys) by (apply wf_len in Hw; exists (m' - length ys); lia).
      destruct HM as (q & ->).
      exists (q + m2). repeat split; auto; try lia.
      * destruct l; cbn in *; [|exact Hev]. destruct r; [congruence|exact Hev].
      * apply IH; auto. exists e1, e2, q, m2, ys. repeat split; auto.
Qed.

Lemma addev_app : forall e1 e2 i l, addev i l (e1 ++ e2) = addev i l e1 ++ addev (i + length e1) l e2.
Proof.
  induction e1 as [|a e1 IH]; intros e2 i l; cbn; [now rewrite Nat.add_0_r|]. rewrite IH. do 3 f_equal. lia.
Qed.
Lemma addev_low : forall e i l d, (forall k, k < d -> ev_of k l = []) -> i + length e <= d -> addev i l e = e.
Proof.
  induction e as [|a e IH]; intros i l d H L; cbn in *; auto. rewrite H by lia. rewrite (IH (S i) l d); auto. lia.
Qed.

Lemma wf_local : forall nd l r r' lab,
  r <> [] -> r' <> [] -> (forall k, k < length l -> ev_of k lab = []) ->
  (forall ys e2 m2 out, (l = [] -> ys = []) -> wf nd r ys e2 m2 out -> exists e2' m2' out', wf nd r' ys e2' m2' out' /\ m2' < m2 /\
     out = out_of lab ++ out' /\ e2 = addev (length l) lab e2') ->
  forall ess m out, wf nd (l ++ r) [] ess m out ->
  exists ess' m' out', wf nd (l ++ r') [] ess' m' out' /\ m' < m /\ out = out_of lab ++ out' /\ ess = addev 0 lab ess'.
Proof.
  intros nd l r r' lab Hr Hr' Hk H ess m out W. apply wf_app in W; auto.
  destruct W as (e1 & e2 & m1 & m2 & ys & -> & L & -> & W1 & W2).
  apply H in W2; [|intros ->; cbn in W1; destruct e1; [now destruct W1|contradiction]].
  destruct W2 as (e2' & m2' & out' & W2 & Lm & -> & ->).
  exists (e1 ++ e2'), (m1 + m2'), out'. split; [|split; [lia|split; auto]].
  - apply wf_app; auto. exists e1, e2', m1, m2', ys. repeat split; auto.
  - rewrite addev_app. rewrite (addev_low e1 0 lab (length l)); auto; [|lia]. cbn. now rewrite L.
Qed.

Ltac evinv := match goal with H : ev _ _ (PSend _ _) _ _ |- _ => inversion H; subst; clear H
  | H : ev _ _ (PRecv _) _ _ |- _ => inversion H; subst; clear H
  | H : ev _ _ (PClose _) _ _ |- _ => inversion H; subst; clear H
  | H : ev _ _ (PCall _ _) _ _ |- _ => inversion H; subst; clear H end.

Ltac eqs := repeat (rewrite Nat.eqb_refl; cbn [app]);
  repeat match goal with |- context[?a =? ?b] => replace (a =? b) with false by (symmetry; apply Nat.eqb_neq; unfold NetModel.stage in *; lia) end; cbn [app].
Ltac fin_addev := cbn [addev ev_of app]; eqs; cbn [app]; rewrite addev_lt; [reflexivity|];
  let j := fresh in let Hj := fresh in intros j Hj; cbn [ev_of]; eqs; reflexivity.
Ltac low := let j := fresh in let Hj := fresh in intros j Hj; cbn [ev_of]; eqs; reflexivity.
Ltac cnt := cbn [length app outs flat_map]; repeat rewrite app_length; cbn [length app]; lia.

Lemma wf_step : forall nd s lab s' ess m out, nstep s lab s' -> lab <> TOutEnd -> wf nd s [] ess m out ->
  exists ess' m' out', wf nd s' [] ess' m' out' /\ m' < m /\ out = out_of lab ++ out' /\ ess = addev 0 lab ess'.
Proof.
  intros nd s lab s' ess m out St Hl W.
  destruct St as [l p v n b r Lb|l p v k c r|l q n v b cl k c r|l q n k c r|k c r|l p n b r|l e p c r|l q n v b cl|l v p|l q n].
  - eapply wf_local; [| | | |exact W]; try discriminate; [low|].
    clear -Lb. intros ys [|es e2] m2 out Hy H; cbn in H; [contradiction|]. destruct H as (m' & Hev & Hb & Hw & ->). evinv.
    exists (es0 :: e2), (length es0 + m'), out. split; [|split; [cnt|split; [reflexivity|]]].
    + cbn. exists m'. repeat split; auto. rewrite app_length. cbn. lia. rewrite <- app_assoc. exact Hw.
    + fin_addev.
  - eapply wf_local; [| | | |exact W]; try discriminate; [low|].
    clear. intros ys [|es e2] m2 out Hy H; cbn in H; [contradiction|]. destruct H as (m' & Hev & Hb & Hw & ->). destruct c as [n2 b2 cl2].
    destruct e2 as [|es2 e2]; [contradiction|]. destruct Hw as (m2 & Hev2 & Hb2 & Hw & ->).
    evinv. cbn in Hev2. evinv.
    exists (es0 :: es :: e2), (length es0 + (length es + m2)), out. split; [|split; [cnt|split; [reflexivity|]]].
    + cbn. exists (length es + m2). repeat split; auto. exists m2. repeat split; auto.
    + fin_addev.
  - eapply wf_local; [| | | |exact W]; try discriminate; [low|].
    clear. intros ys [|es e2] m2 out Hy H; cbn in H; [contradiction|]. destruct H as (m' & Hev & Hb & Hw & ->). destruct c as [n2 b2 cl2].
    destruct e2 as [|es2 e2]; [contradiction|]. destruct Hw as (m2 & Hev2 & Hb2 & Hw & ->). cbn in Hev2. evinv.
    exists (es :: es0 :: e2), (length es + (length es0 + m2)), out. split; [|split; [cnt|split; [reflexivity|]]].
    + cbn. exists (length es0 + m2). repeat split; auto; try lia. exists m2. repeat split; auto.
    + fin_addev.
  - eapply wf_local; [| | | |exact W]; try discriminate; [low|].
    clear. intros ys [|es e2] m2 out Hy H; cbn in H; [contradiction|]. destruct H as (m' & Hev & Hb & Hw & ->). destruct c as [n2 b2 cl2].
    destruct e2 as [|es2 e2]; [contradiction|]. destruct Hw as (m2 & Hev2 & Hb2 & Hw & ->). cbn in Hev2.
    pose proof (ev_closed_outs _ _ _ _ Hev) as Eo. rewrite Eo in Hev2. evinv.
    exists (es :: es0 :: e2), (length es + (length es0 + m2)), out. split; [|split; [cnt|split; [reflexivity|]]].
    + cbn. exists (length es0 + m2). repeat split; auto; try lia. rewrite Eo. exists m2. repeat split; auto.
    + fin_addev.
  - change ((PRecv k, c) :: r) with ([] ++ (PRecv k, c) :: r) in W. change ((k None, c) :: r) with ([] ++ (k None, c) :: r).
    eapply wf_local; [| | | |exact W]; try discriminate; [intros j Hj; inversion Hj|].
    clear. intros ys [|es e2] m2 out Hy H; destruct c as [n2 b2 cl2]; cbn in H; [contradiction|]. destruct H as (m' & Hev & Hb & Hw & ->).
    rewrite Hy in * by auto. evinv.
    exists (es0 :: e2), (length es0 + m'), out. split; [|split; [cnt|split; [reflexivity|]]].
    + cbn. exists m'. repeat split; auto.
    + cbn [length]. fin_addev.
  - eapply wf_local; [| | | |exact W]; try discriminate; [low|].
    clear. intros ys [|es e2] m2 out Hy H; cbn in H; [contradiction|]. destruct H as (m' & Hev & Hb & Hw & ->). evinv.
    exists (es0 :: e2), (length es0 + m'), out. split; [|split; [cnt|split; [reflexivity|]]].
    + cbn. exists m'. repeat split; auto.
    + fin_addev.
  - eapply wf_local; [| | | |exact W]; try discriminate; [low|].
    clear. intros ys [|es e2] m2 out Hy H; destruct c as [n2 b2 cl2]; cbn in H; [contradiction|]. destruct H as (m' & Hev & Hb & Hw & ->). evinv.
    exists (es0 :: e2), (length es0 + m'), out. split; [|split; [cnt|split; [reflexivity|]]].
    + cbn. exists m'. repeat split; auto.
    + fin_addev.
  - eapply wf_local; [| | | |exact W]; try discriminate; [low|].
    clear. intros ys [|es [|]] m2 out Hy H; cbn in H; try contradiction; destruct H as (m' & Hev & Hb & Hw & ->); [|contradiction].
    destruct Hw as [-> ->]. exists [es], (length es + length (b ++ outs es)), (b ++ outs es). split; [|split; [cnt|split; [reflexivity|]]].
    + cbn. exists (length (b ++ outs es)). repeat split; auto; lia.
    + reflexivity.
  - eapply wf_local; [| | | |exact W]; try discriminate; [low|].
    clear. intros ys [|es [|]] m2 out Hy H; cbn in H; try contradiction; destruct H as (m' & Hev & Hb & Hw & ->); [|contradiction].
    destruct Hw as [-> ->]. evinv. exists [es0], (length es0 + length (outs es0)), (outs es0). split; [|split; [|split; [reflexivity|]]].
    + cbn. exists (length (outs es0)). repeat split; auto; lia.
    + cbn. fold (outs es0). lia.
    + cbn. now rewrite Nat.eqb_refl.
  - congruence.
Qed.

Lemma outend_same : forall s s', nstep (V:=V) (E:=E) s TOutEnd s' -> s' = s.
Proof. intros s s' H. inversion H; subst; auto. Qed.
Lemma outend_done : forall nd s s' ess m out, nstep s TOutEnd s' -> wf nd s [] ess m out -> out = [].
Proof.
  intros nd s s' ess m out St W. remember (@TOutEnd V E) as lab eqn:El. destruct St; try discriminate.
  apply wf_app in W; [|discriminate]. destruct W as (e1 & e2 & m1 & m2 & ys & -> & L & -> & W1 & W2).
  destruct e2 as [|es [|]]; cbn in W2; try contradiction; destruct W2 as (m' & Hev & Hb & Hw & ->); [|contradiction].
  destruct Hw as [_ ->]. cbn. now rewrite (ev_closed_outs _ _ _ _ Hev).
Qed.

Lemma wf_safe : forall nd s xs ess m out, wf nd s xs ess m out -> Forall (fun st => ~ faulty st) s.
Proof.
  intros nd. induction s as [|[p [n b cl]] s IH]; intros xs [|es ess] m out H; cbn in H; try contradiction; constructor.
  - destruct H as (m' & Hev & _). inversion Hev; subst; cbn; auto; discriminate.
  - destruct H as (m' & _ & _ & H & _). eapply IH; eauto.
Qed.

Definition quiet (r : list stage) : Prop := match r with [] => True | (PRecv _, _) :: _ | (PEnd, _) :: _ => True | _ => False end.

Lemma wf_progress : forall nd l r ess m out, quiet r -> wf nd (l ++ r) [] ess m out ->
  (exists lab s', lab <> TOutEnd /\ nstep (l ++ r) lab s') \/ Forall ended l.
Proof.
  intros nd l. induction l as [|[p [n b cl]] l IH] using rev_ind; intros r ess m out Q W; [right; constructor|].
  rewrite <- app_assoc in *. cbn [app] in *.
  pose proof W as W0. apply wf_app in W; [|discriminate]. destruct W as (e1 & e2 & m1 & m2 & ys & -> & L & -> & W1 & W2).
  destruct e2 as [|es e2]; [contradiction|]. cbn in W2. destruct W2 as (m' & Hev & Hb & Hw & ->).
  inversion Hev as [v p' ? es' Hev'|cl' k x ys' es' Hev'|cl' k es' Hev'|p' ? es' Hev'|cl' e p' ? es' Hev'|cl' Hcl]; subst.
  - left. destruct (Nat.lt_ge_cases (length b) n) as [Lt|Ge].
    { eexists _, _. split; [|apply NSend; exact Lt]. discriminate. }
    destruct b as [|x b].
    + cbn in Ge. assert (n = 0) by lia. subst n. destruct r as [|[q c] r].
      * eexists _, _. split; [|apply NOutHand]. discriminate.
      * destruct q; cbn in Q; try contradiction.
        -- eexists _, _. split; [|apply NHand]. discriminate.
        -- exfalso. destruct c as [n2 b2 cl2]. destruct e2 as [|es2 e2]; [contradiction|]. destruct Hw as (m2 & Hev2 & _). inversion Hev2.
    + destruct r as [|[q c] r].
      * eexists _, _. split; [|apply NOut]. discriminate.
      * destruct q; cbn in Q; try contradiction.
        -- eexists _, _. split; [|apply NRecv]. discriminate.
        -- exfalso. destruct c as [n2 b2 cl2]. destruct e2 as [|es2 e2]; [contradiction|]. destruct Hw as (m2 & Hev2 & _). inversion Hev2.
  - destruct (IH ((PRecv k, Ch n b cl) :: r) _ _ _ I W0) as [St|En]; [left; exact St|left].
    destruct l as [|[q [n1 b1 cl1]] l _] using rev_ind.
    { eexists _, _. split; [|apply NRecv0]. discriminate. }
    rewrite <- app_assoc. cbn [app]. apply Forall_app in En. destruct En as [_ En]. inversion En as [|? ? En1 _]; subst. unfold ended in En1; cbn in En1. subst q.
    destruct b1 as [|y b1]; [|eexists _, _; split; [|apply NRecv]; discriminate].
    apply wf_app in W1; [|discriminate]. destruct W1 as (f1 & f2 & q1 & q2 & zs & -> & L1 & Hm & W3 & W4).
    destruct f2 as [|es2 [|]]; cbn in W4; try contradiction; destruct W4 as (m'' & Hev2 & Hb2 & Hw2 & ->); [|contradiction].
    inversion Hev2 as [| | | | |? Hc]; subst. rewrite (Hc eq_refl). eexists _, _. split; [|apply NRecvEnd]. discriminate.
  - destruct (IH ((PRecv k, Ch n b cl) :: r) _ _ _ I W0) as [St|En]; [left; exact St|left].
    destruct l as [|[q [n1 b1 cl1]] l _] using rev_ind.
    { eexists _, _. split; [|apply NRecv0]. discriminate. }
    rewrite <- app_assoc. cbn [app]. apply Forall_app in En. destruct En as [_ En]. inversion En as [|? ? En1 _]; subst. unfold ended in En1; cbn in En1. subst q.
    destruct b1 as [|y b1]; [|eexists _, _; split; [|apply NRecv]; discriminate].
    apply wf_app in W1; [|discriminate]. destruct W1 as (f1 & f2 & q1 & q2 & zs & -> & L1 & Hm & W3 & W4).
    destruct f2 as [|es2 [|]]; cbn in W4; try contradiction; destruct W4 as (m'' & Hev2 & Hb2 & Hw2 & ->); [|contradiction].
    inversion Hev2 as [| | | | |? Hc]; subst. rewrite (Hc eq_refl). eexists _, _. split; [|apply NRecvEnd]. discriminate.
  - left. eexists _, _. split; [|apply NClose]. discriminate.
  - left. eexists _, _. split; [|apply NCall]. discriminate.
  - destruct (IH ((PEnd, Ch n b cl) :: r) _ _ _ I W0) as [St|En]; [left; exact St|right].
    apply Forall_app. split; auto. constructor; [reflexivity|constructor].
Qed.

(** When everything ended: nothing left to do, all but the last buffer empty *)
Lemma wf_ended : forall nd s ess m out xs, wf nd s xs ess m out -> Forall ended s -> s <> [] ->
  xs = [] /\ Forall (fun es => es = []) ess /\
  (exists l n b cl, s = l ++ [(PEnd, Ch n b cl)] /\ out = b /\ (nd = true -> cl = true) /\ Forall (fun st => cbuf (snd st) = []) l).
Proof.
  intros nd. induction s as [|[p [n b cl]] s IH]; intros [|es ess] m out xs W F Ne; try (cbn in W; contradiction); try congruence.
  cbn in W. destruct W as (m' & Hev & Hb & Hw & ->). inversion F as [|? ? E1 E2]; subst. unfold ended in E1; cbn in E1. subst p.
  inversion Hev as [| | | | |? Hc]; subst. split; [reflexivity|]. cbn [outs flat_map] in Hw. rewrite app_nil_r in Hw.
  destruct s as [|st s].
  - destruct ess; cbn in Hw; [|contradiction]. destruct Hw as [-> ->]. split; [repeat constructor|].
    exists [], n, b, cl. repeat split; auto.
  - destruct (IH ess m' out b Hw E2) as (-> & F2 & l & n2 & b2 & cl2 & Es & -> & Hc2 & F3); [discriminate|].
    split; [constructor; auto|]. exists ((PEnd, Ch n [] cl) :: l), n2, b2, cl2. rewrite Es. repeat split; auto.
Qed.

Lemma wf_nonempty : forall nd s ess m out, wf nd s [] ess m out -> s = [] -> out = [] /\ ess = [].
Proof. intros nd s ess m out W ->. destruct ess; cbn in W; [|contradiction]. destruct W as [_ ->]. auto. Qed.

(** Runs *)
Fixpoint addacts (i : nat) (tr : list nlabel) (ess : list (list act)) : list (list act) :=
  match ess with [] => [] | es :: r => (acts i tr ++ es) :: addacts (S i) tr r end.
Lemma addacts_nil : forall ess i, addacts i [] ess = ess.
Proof. induction ess; intros; cbn; f_equal; auto. Qed.
Lemma addacts_snoc : forall ess i tr l, addacts i (tr ++ [l]) ess = addacts i tr (addev i l ess).
Proof.
  induction ess as [|es r IH]; intros i tr l; cbn; auto. rewrite IH. f_equal. unfold acts. rewrite flat_map_app. cbn.
  now rewrite app_nil_r, <- app_assoc.
Qed.
Lemma addacts_nth : forall ess i tr k, nth_error (addacts i tr ess) k = option_map (fun es => acts (i + k) tr ++ es) (nth_error ess k).
Proof.
  induction ess as [|es r IH]; intros i tr [|k]; cbn; auto; [now rewrite Nat.add_0_r|].
  rewrite IH. destruct (nth_error r k); cbn; auto. do 3 f_equal. lia.
Qed.

Notation cnt l := (length (filter (fun x => negb (is_outend x)) l)).
Lemma wf_steps : forall nd s0 ess m out, wf nd s0 [] ess m out -> forall tr s, steps nstep s0 tr s ->
  exists ess' m' out', wf nd s [] ess' m' out' /\ cnt tr + m' <= m /\ out = delivered tr ++ out' /\ ess = addacts 0 tr ess'.
Proof.
  intros nd s0 ess m out W tr s R. induction R as [|tr s1 l s2 R IH St].
  - exists ess, m, out. rewrite addacts_nil. repeat split; auto.
  - destruct IH as (ess' & m' & out' & W' & Lm & -> & ->).
    assert (D : l = TOutEnd \/ l <> TOutEnd) by (destruct l; auto; right; discriminate).
    destruct D as [->|Hl].
    + apply outend_same in St. subst s2. exists ess', m', out'. split; [auto|].
      unfold delivered. rewrite flat_map_app, filter_app, app_length, addacts_snoc. cbn. rewrite !app_nil_r.
      rewrite (addev_none ess' 0 TOutEnd) by reflexivity. repeat split; auto; lia.
    + destruct (wf_step _ _ _ _ _ _ _ St Hl W') as (ess2 & m2 & out2 & W2 & Lm2 & -> & ->).
      exists ess2, m2, out2. split; [auto|]. unfold delivered. rewrite flat_map_app, filter_app, app_length, addacts_snoc. cbn.
      rewrite app_nil_r, <- app_assoc. repeat split; auto. destruct l; cbn; try lia; congruence.
Qed.

Theorem wf_sound : forall nd ps ess m out, wf nd (start ps) [] ess m out -> sound ps.
Proof.
  intros nd ps ess m out W. constructor.
  - intros tr s R. destruct (wf_steps _ _ _ _ _ W _ _ R) as (ess' & m' & out' & W' & _). eapply wf_safe; eauto.
  - intros tr s R. destruct (wf_steps _ _ _ _ _ W _ _ R) as (ess' & m' & out' & W' & _).
    pose proof W' as W2. rewrite <- (app_nil_r s) in W2. destruct (wf_progress nd s [] _ _ _ I W2) as [St|En].
    { rewrite app_nil_r in St. left. exact St. }
    destruct s as [|st s]; [right; split; constructor|].
    destruct (wf_ended _ _ _ _ _ _ W' En) as (_ & _ & l & n & b & cl & Es & -> & Hc & F); [discriminate|].
    rewrite Es in *. destruct b as [|x b].
    + right. split; auto. apply Forall_app. split; auto.
    + left. eexists _, _. split; [|apply NOut]. discriminate.
  - exists m. intros tr s R. destruct (wf_steps _ _ _ _ _ W _ _ R) as (ess' & m' & out' & W' & L & _). lia.
Qed.

Theorem wf_does : forall nd ps ess m out i es, wf nd (start ps) [] ess m out -> nth_error ess i = Some es -> does ps i es.
Proof.
  intros nd ps ess m out i es W Hi tr s R. destruct (wf_steps _ _ _ _ _ W _ _ R) as (ess' & m' & out' & W' & L & _ & ->).
  rewrite addacts_nth in Hi. cbn in Hi. destruct (nth_error ess' i) as [es'|] eqn:N; cbn in Hi; [|discriminate].
  injection Hi as <-. split; [eexists; reflexivity|]. intros En. destruct s as [|st s].
  { apply wf_nonempty in W'; auto. destruct W' as [_ ->]. destruct i; discriminate. }
  destruct (wf_ended _ _ _ _ _ _ W' En) as (_ & F & _); [discriminate|].
  rewrite Forall_forall in F. rewrite (F es') by (eapply nth_error_In; eauto). now rewrite app_nil_r.
Qed.

Theorem wf_runs : forall ps ess m out, ps <> [] -> wf true (start ps) [] ess m out -> runs_to ps out.
Proof.
  intros ps ess m out Ne W. constructor.
  - eapply wf_sound; eauto.
  - intros tr s R. destruct (wf_steps _ _ _ _ _ W _ _ R) as (ess' & m' & out' & W' & _ & -> & _). eexists; reflexivity.
  - intros tr s s' R St. destruct (wf_steps _ _ _ _ _ W _ _ R) as (ess' & m' & out' & W' & _ & -> & _).
    rewrite (outend_done _ _ _ _ _ _ St W'). now rewrite app_nil_r.
  - intros tr s R En Dr. destruct (wf_steps _ _ _ _ _ W _ _ R) as (ess' & m' & out' & W' & _ & -> & _).
    assert (Ns : s <> []).
    { intros ->. clear - Ne R. assert (G : forall s0 tr s, steps nstep s0 tr s -> s0 <> [] -> s <> (@nil stage)).
      { clear. induction 1 as [|tr s1 l s2 R IH St]; auto. intros H. specialize (IH H). intros ->. inversion St; subst; try (destruct l0; discriminate); congruence. }
      eapply G in R; [congruence|]. destruct ps; [congruence|discriminate]. }
    destruct (wf_ended _ _ _ _ _ _ W' En Ns) as (_ & _ & l & n & b & cl & Es & -> & Hc & F). rewrite Es in Dr.
    apply Forall_app in Dr. destruct Dr as [_ Dr]. inversion Dr as [|? ? Hb _]; subst. cbn in Hb. subst b. rewrite app_nil_r. split; auto.
    rewrite Hc by auto. constructor.
Qed.

Lemma ev_sends : forall l nd xs p es, ev nd false p xs es -> ev nd false (sends l p) xs (map AcS l ++ es).
Proof. induction l; intros; cbn; auto. constructor. auto. Qed.
Lemma ev_source : forall xs, ev true false (source xs) [] (map AcS xs ++ [AcX]).
Proof. intros. apply ev_sends. constructor. constructor. auto. Qed.
Lemma outs_app : forall a b : list act, outs (a ++ b) = outs a ++ outs b.
Proof. intros. apply flat_map_app. Qed.
Lemma outs_sends : forall xs : list V, outs (map (AcS (E:=E)) xs) = xs.
Proof. induction xs; cbn; auto. unfold outs in *. now rewrite IHxs. Qed.
Lemma calls_app : forall a b : list act, calls (a ++ b) = calls a ++ calls b.
Proof. intros. apply flat_map_app. Qed.

(** events of the operator behind a source *)
Lemma pair_wf : forall p xs n k es nd, ev nd false p xs es ->
  exists m, wf nd (start [(source xs, n); (p, k)]) [] [map AcS xs ++ [AcX]; es] m (outs es).
Proof.
  intros p xs n k es nd H. eexists. cbn. eexists. split; [apply ev_source|]. split; [lia|]. split; [|reflexivity].
  eexists. split; [rewrite outs_app, outs_sends; cbn; rewrite app_nil_r; exact H|]. split; [lia|]. split; [|reflexivity]. auto.
Qed.
Theorem pair_does : forall p xs n k es nd, ev nd false p xs es -> does [(source xs, n); (p, k)] 1 es.
Proof. intros. destruct (pair_wf p xs n k es nd H) as (m & W). eapply wf_does; eauto. Qed.
Theorem pair_sound : forall p xs n k es nd, ev nd false p xs es -> sound [(source xs, n); (p, k)].
Proof. intros. destruct (pair_wf p xs n k es nd H) as (m & W). eapply wf_sound; eauto. Qed.
Lemma wf_mono : forall s nd xs ess m out, wf nd s xs ess m out -> s <> [] -> wf false s xs ess m out.
Proof.
  assert (G : forall nd cl (p : proc) xs es, ev nd cl p xs es -> ev false cl p xs es).
  { induction 1; constructor; auto. discriminate. }
  induction s as [|[p [n b cl]] s IH]; intros nd xs [|es ess] m out W Ne; cbn in W; try contradiction; try congruence.
  destruct W as (m' & Hev & Hb & Hw & ->). cbn. exists m'. repeat split; auto.
  - destruct s; [eapply G; eauto|exact Hev].
  - destruct s; [exact Hw|]. eapply IH; eauto. discriminate.
Qed.

Lemma ev_works : forall p xs es, ev true false p xs es -> works p xs (outs es).
Proof. intros p xs es H n m. destruct (pair_wf p xs n m es true H) as (k & W). eapply wf_runs; eauto. discriminate. Qed.
Lemma ev_works' : forall p xs es ys, ev true false p xs es -> outs es = ys -> works p xs ys.
Proof. intros p xs es ys H <-. now apply ev_works. Qed.
Lemma ev_performs : forall p xs es nd, ev nd false p xs es -> performs p xs es.
Proof. intros p xs es nd H n m. split; [eapply pair_sound; eauto|eapply pair_does; eauto]. Qed.

(** Conversely, an operator that works alone between a source and a reader has such runs *)
Lemma source_run : forall ys n b r, length b + length ys <= n ->
  exists tr : list nlabel, steps nstep ((source ys, Ch n b false) :: r) tr ((PEnd, Ch n (b ++ ys) true) :: r) /\ delivered tr = [] /\ acts 1 tr = [].
Proof.
  induction ys as [|y ys IH]; intros n b r L.
  - exists [TClose 0]. split; auto. eapply steps_cons; [apply (NClose [] PEnd n b r)|]. rewrite app_nil_r. constructor.
  - destruct (IH n (b ++ [y]) r) as (tr & R & D & A). { rewrite app_length. cbn in *. lia. }
    exists (TSend 0 y :: tr). split; auto. eapply steps_cons; [apply (NSend [] (source ys) y n b r); cbn in *; lia|].
    rewrite <- app_assoc in R. exact R.
Qed.

Ltac two l := destruct l as [|? [|? l]]; cbn in *; try discriminate; try (destruct l; cbn in *; discriminate).

Lemma sound_run : forall p xs, sound [(source xs, length xs); (p, 0)] ->
  exists es tr clf, steps nstep (start [(source xs, length xs); (p, 0)]) tr [(PEnd, Ch (length xs) [] true); (PEnd, Ch 0 [] clf)] /\
    (forall nd, (nd = true -> clf = true) -> ev nd false p xs es) /\ delivered tr = outs es /\ acts 1 tr = es.
Proof.
  intros p xs So. destruct So as [_ Lv [N Bd]].
  set (s0 := start [(source xs, length xs); (p, 0)]) in *.
  assert (G : forall k tr q ys cl, N <= cnt tr + k -> steps nstep s0 tr [(PEnd, Ch (length xs) ys true); (q, Ch 0 [] cl)] ->
            exists es tr' clf, steps nstep [(PEnd, Ch (length xs) ys true); (q, Ch 0 [] cl)] tr' [(PEnd, Ch (length xs) [] true); (PEnd, Ch 0 [] clf)] /\
              (forall nd, (nd = true -> clf = true) -> ev nd cl q ys es) /\ delivered tr' = outs es /\ acts 1 tr' = es).
  { induction k as [k IH] using lt_wf_ind. intros tr q ys cl Lk R.
    destruct (Lv _ _ R) as [(l & s' & Nl & St)|(En & Dr)].
    - assert (R2 : steps nstep s0 (tr ++ [l]) s') by (econstructor; eauto).
      pose proof (Bd _ _ R2) as B2.
      assert (C2 : cnt (tr ++ [l]) = S (cnt tr)).
      { rewrite filter_app, app_length. cbn. destruct l; cbn; try lia; congruence. }
      assert (IH' : forall q' ys' cl' a, s' = [(PEnd, Ch (length xs) ys' true); (q', Ch 0 [] cl')] ->
                ev_of 1 l = a -> (forall nd es, ev nd cl' q' ys' es -> ev nd cl q ys (a ++ es)) -> out_of l = outs a ->
                exists es tr' clf, steps nstep [(PEnd, Ch (length xs) ys true); (q, Ch 0 [] cl)] tr' [(PEnd, Ch (length xs) [] true); (PEnd, Ch 0 [] clf)] /\
                  (forall nd, (nd = true -> clf = true) -> ev nd cl q ys es) /\ delivered tr' = outs es /\ acts 1 tr' = es).
      { intros q' ys' cl' a -> Ha Hst Ho. destruct k as [|k]; [lia|].
        destruct (IH k ltac:(lia) (tr ++ [l]) q' ys' cl') as (es & tr' & clf & R' & Hev & Hd & Hac); auto; [lia|].
        exists (a ++ es), (l :: tr'), clf. split; [eapply steps_cons; eauto|]. split; [intros nd Hn; apply Hst; auto|].
        rewrite outs_app. cbn. unfold delivered in *. cbn. rewrite Hd, Ho. unfold acts in *. rewrite Hac, Ha. auto. }
      clear IH B2 C2 R2. remember [(PEnd, Ch (length xs) ys true); (q, Ch 0 [] cl)] as s eqn:Es.
      destruct St as [l p0 v n b r Lb|l p0 v k0 c r|l q0 n v b cl0 k0 c r|l q0 n k0 c r|k0 c r|l p0 n b r|l e p0 c r|l q0 n v b cl0|l v p0|l q0 n].
      + two l; injection Es as ? ? ? ? ?; subst; cbn in *; lia.
      + two l.
      + two l. injection Es as ? ? ? ? ? ?; subst. eapply (IH' _ _ _ [AcR (Some v)] eq_refl); try reflexivity. intros; now constructor.
      + two l. injection Es as ? ? ? ? ?; subst. eapply (IH' _ _ _ [AcR None] eq_refl); try reflexivity. intros; now constructor.
      + discriminate.
      + two l. injection Es as ? ? ? ? ? ?; subst. eapply (IH' _ _ _ [AcX] eq_refl); try reflexivity. intros; now constructor.
      + two l. injection Es as ? ? ? ?; subst. eapply (IH' _ _ _ [AcC e] eq_refl); try reflexivity. intros; now constructor.
      + two l.
      + two l. injection Es as ? ? ?; subst. eapply (IH' _ _ _ [AcS v] eq_refl); try reflexivity. intros; now constructor.
      + congruence.
    - inversion En as [|? ? _ En2]; subst. inversion En2 as [|? ? Eq _]; subst.
      unfold ended in Eq; cbn in Eq. subst q. inversion Dr as [|? ? Dy _]; subst. cbn in Dy. subst ys.
      exists [], [], cl. split; [constructor|]. split; auto. intros nd Hn. constructor. auto. }
  destruct (source_run xs (length xs) [] [(p, Ch 0 [] false)] ltac:(cbn; lia)) as (tr0 & R0 & D0 & A0).
  destruct (G N tr0 p xs false ltac:(lia)) as (es & tr' & clf & R' & Hev & Hd & Ha); [exact R0|].
  exists es, (tr0 ++ tr'), clf. split; [eapply steps_app; [exact R0|exact R']|]. split; auto.
  unfold delivered, acts in *. rewrite !flat_map_app, D0, A0. auto.
Qed.

Lemma works_ev : forall p xs ys, works p xs ys -> exists es, ev true false p xs es /\ outs es = ys.
Proof.
  intros p xs ys H. destruct (H (length xs) 0) as [So _ _ He].
  destruct (sound_run p xs So) as (es & tr & clf & R & Hev & Hd & _). exists es.
  assert (En : Forall (@ended V E) [(PEnd, Ch (length xs) [] true); (PEnd, Ch 0 [] clf)]) by (repeat constructor).
  destruct (He _ _ R En) as [Ed St]; [repeat constructor|]. split; [|congruence]. apply Hev. intros _.
  inversion St as [| | | | | | | | |l q0 n0 Es1 Es2 Es3]; subst. two l. now injection Es1.
Qed.
Lemma performs_ev : forall p xs plan, performs p xs plan -> ev false false p xs plan.
Proof.
  intros p xs plan H. destruct (H (length xs) 0) as [So Do].
  destruct (sound_run p xs So) as (es & tr & clf & R & Hev & _ & Ha).
  destruct (Do _ _ R) as [_ E1]. rewrite <- E1 by (repeat constructor). rewrite Ha. apply Hev. discriminate.
Qed.

Lemma wf_chain : forall ps xs ys, chained ps xs ys -> exists ess m, wf true (start ps) xs ess m ys.
Proof.
  induction 1 as [xs|p n ps xs ys zs H H2 (ess & m & W)].
  - exists [], (length xs). cbn. auto.
  - destruct (works_ev _ _ _ H) as (es & Hev & Ho).
    exists (es :: ess), (length es + m). cbn. exists m. repeat split; auto; try lia.
    + destruct ps; exact Hev.
    + rewrite Ho. exact W.
Qed.
Lemma wf_front : forall xs n ps ess m out nd, wf nd (start ps) xs ess m out -> (ps = [] -> nd = true) ->
  wf nd (start ((source xs, n) :: ps)) [] ((map AcS xs ++ [AcX]) :: ess) (length (map (AcS (E:=E)) xs ++ [AcX]) + m) out.
Proof.
  intros xs n ps ess m out nd W Hn. cbn. exists m. repeat split; try lia; [destruct ps; [rewrite Hn by auto|]; apply ev_source|].
  rewrite outs_app, outs_sends. cbn. rewrite app_nil_r. exact W.
Qed.

Theorem pipeline : forall (ps : list (proc * nat)) xs ys n, chained ps xs ys -> runs_to ((source xs, n) :: ps) ys.
Proof.
  intros ps xs ys n H. destruct (wf_chain _ _ _ H) as (ess & m & W).
  eapply wf_runs; [discriminate|]. eapply wf_front; eauto.
Qed.
Theorem pipeline_closed : forall (ps : list (proc * nat)) ys, ps <> [] -> chained ps [] ys -> runs_to ps ys.
Proof.
  intros ps ys Ne H. destruct (wf_chain _ _ _ H) as (ess & m & W). eapply wf_runs; eauto.
Qed.
Theorem pipeline_terminal : forall (ps : list (proc * nat)) xs ys n t k plan, chained ps xs ys -> performs t ys plan ->
  sound ((source xs, n) :: ps ++ [(t, k)]) /\ does ((source xs, n) :: ps ++ [(t, k)]) (S (length ps)) plan.
Proof.
  intros ps xs ys n t k plan H Ht. apply performs_ev in Ht. destruct (wf_chain _ _ _ H) as (ess & m & W).
  assert (W2 : exists m, wf false (start (ps ++ [(t, k)])) xs (ess ++ [plan]) m (outs plan)).
  { unfold start. rewrite map_app. pose proof (wf_len _ _ _ _ _ _ W).
    exists ((m - length ys) + (length plan + length (outs plan))). apply wf_app; [discriminate|].
    exists ess, [plan], (m - length ys), (length plan + length (outs plan)), ys. repeat split; auto.
    - clear - W. unfold start in W. assert (G : forall (l : list stage) e m nd xs out, wf nd l xs e m out -> length e = length l).
      { clear. induction l as [|[p [n b cl]] l IH]; intros [|es e] m nd xs out W; cbn in W; try contradiction; auto.
        destruct W as (? & _ & _ & W & _). cbn. f_equal. eapply IH; eauto. }
      eapply G; eauto.
    - replace (m - length ys + length ys) with m by lia. exact W.
    - cbn. exists (length (outs plan)). repeat split; auto; lia. }
  destruct W2 as (m2 & W2). assert (W3 := fun Hn => wf_front xs n _ _ _ _ _ W2 Hn). specialize (W3 ltac:(destruct ps; discriminate)).
  split; [eapply wf_sound; exact W3|]. eapply wf_does; [exact W3|]. cbn.
  assert (L : length ess = length ps).
  { clear - W. unfold start in W. assert (G : forall (l : list stage) e m nd xs out, wf nd l xs e m out -> length e = length l).
      { clear. induction l as [|[p [n b cl]] l IH]; intros [|es e] m nd xs out W; cbn in W; try contradiction; auto.
        destruct W as (? & _ & _ & W & _). cbn. f_equal. eapply IH; eauto. }
      apply G in W. rewrite map_length in W. exact W. }
  rewrite nth_error_app2 by lia. rewrite L, Nat.sub_diag. reflexivity.
Qed.

(** Reading everything first *)
Lemma collect_eq : forall acc k, @collect V E acc k = PRecv (fun o => match o with Some v => collect (acc ++ [v]) k | None => k acc end).
Proof. intros. rewrite (frob_eq (collect acc k)). reflexivity. Qed.
Lemma ev_collect : forall xs nd acc cl k es, ev nd cl (k (acc ++ xs)) [] es -> ev nd cl (collect acc k) xs (reads xs ++ es).
Proof.
  induction xs as [|x xs IH]; intros nd acc cl k es H; rewrite collect_eq; cbn.
  - rewrite app_nil_r in H. now constructor.
  - constructor. apply IH. now rewrite <- app_assoc.
Qed.
Lemma outs_reads : forall xs : list V, outs (E:=E) (reads xs) = [].
Proof. induction xs; cbn; auto. Qed.

Theorem sound_completes : forall ps : list (proc * nat), sound ps -> forall tr s, steps nstep (start ps) tr s ->
  exists tr' s', steps nstep s tr' s' /\ Forall ended s' /\ Forall (fun st => cbuf (snd st) = []) s'.
Proof.
  intros ps [_ Lv [N Bd]].
  assert (G : forall k tr s, N <= cnt tr + k -> steps nstep (start ps) tr s ->
     exists tr' s', steps nstep s tr' s' /\ Forall ended s' /\ Forall (fun st => cbuf (snd st) = []) s').
  { induction k as [k IH] using lt_wf_ind. intros tr s L R. destruct (Lv _ _ R) as [(l & s' & Nl & St)|[En Dr]].
    - assert (R2 : steps nstep (start ps) (tr ++ [l]) s') by (econstructor; eauto). pose proof (Bd _ _ R2) as B2.
      assert (C2 : cnt (tr ++ [l]) = S (cnt tr)) by (rewrite filter_app, app_length; cbn; destruct l; cbn; try lia; congruence).
      destruct k as [|k]; [lia|]. destruct (IH k ltac:(lia) (tr ++ [l]) s' ltac:(lia) R2) as (tr' & s2 & R' & E2).
      exists (l :: tr'), s2. split; auto. eapply steps_cons; eauto.
    - exists [], s. split; [constructor|auto]. }
  intros tr s R. apply (G N tr s); auto. lia.
Qed.
End Proofs.
