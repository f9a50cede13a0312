(** * Whole pipelines: proofs *)
From Coq Require Import List Bool Arith Lia Permutation Wf_nat.
From Verif Require Import Trans NetModel NetSpec NetProofs FanModel FanSpec FanProofs PipeModel PipeSpec.
Import ListNotations.
Open Scope nat_scope.

Section Proofs.
Context {V E : Type}.
Variable x0 : V. (* there are items *)
Notation proc := (proc V E). Notation chan := (chan V). Notation comp := (comp V E). Notation cact := (cact V E).
Notation stg := (stg V E). Notation plabel := (plabel V E). Notation op := (op V E).

(** ** One group alone *)
Definition recvs (t : list cact) : list V := flat_map (fun a => match a with KRecv (Some v) => [v] | _ => [] end) t.
Definition sents (t : list cact) : list V := flat_map (fun a => match a with KSend v => [v] | _ => [] end) t.
Definition kcalls (t : list cact) : list E := flat_map (fun a => match a with KCall e => [e] | _ => [] end) t.
Definition seen (t : list cact) : bool := existsb (fun a => match a with KRecv None => true | _ => false end) t.
Definition shut (t : list cact) : bool := existsb (fun a => match a with KClose => true | _ => false end) t.
(** no item after the end of the input *)
Fixpoint wfin (t : list cact) : Prop :=
  match t with
  | [] => True
  | KRecv None :: t' => recvs t' = [] /\ wfin t'
  | _ :: t' => wfin t'
  end.

Lemma recvs_app : forall a b, recvs (a ++ b) = recvs a ++ recvs b. Proof. intros; apply flat_map_app. Qed.
Lemma sents_app : forall a b, sents (a ++ b) = sents a ++ sents b. Proof. intros; apply flat_map_app. Qed.
Lemma kcalls_app : forall a b, kcalls (a ++ b) = kcalls a ++ kcalls b. Proof. intros; apply flat_map_app. Qed.
Lemma seen_app : forall a b, seen (a ++ b) = seen a || seen b. Proof. intros; apply existsb_app. Qed.
Lemma shut_app : forall a b, shut (a ++ b) = shut a || shut b. Proof. intros; apply existsb_app. Qed.
Lemma wfin_app : forall a b, wfin (a ++ b) <-> wfin a /\ wfin b /\ (seen a = true -> recvs b = []).
Proof.
  induction a as [|x a IH]; intros b; cbn.
  - intuition discriminate.
  - destruct x as [|e|[v|]|v|]; cbn [orb]; rewrite IH; try tauto.
    rewrite recvs_app. split.
    + intros (H1 & H2 & H3 & _). apply app_eq_nil in H1. tauto.
    + intros ((H1 & H2) & H3 & H4). rewrite H1, H4 by auto. auto.
Qed.
Lemma wfin_snoc : forall t a, wfin t -> (seen t = true -> recvs [a] = []) -> wfin (t ++ [a]).
Proof. intros t a W H. apply wfin_app. split; auto. split; auto. destruct a as [|e|[v|]|v|]; cbn; auto. Qed.
Lemma wfin_snoc_inv : forall t a, wfin (t ++ [a]) -> wfin t /\ (seen t = true -> recvs [a] = []).
Proof. intros t a W. apply wfin_app in W. tauto. Qed.

Definition free (a : cact) : bool := match a with KRecv (Some _) => false | _ => true end.
Definition own (a : cact) : bool := match a with KRecv _ => false | _ => true end.
Definition tstep (c' c : comp) : Prop := exists a, free a = true /\ cstep c a c'.

(** What the rest of the pipeline relies on, for at most n received items: at most m are sent;
    nothing is sent or closed after closing; it ended, or can move by itself, or waits for
    input; at the end it has closed (cl) and read everything (rd), and R relates input, output
    and calls; between two items it does not go on for ever. *)
Record good (rd cl : bool) (n : nat) (c0 : comp) (m : nat) (R : list V -> list V -> list E -> Prop) : Prop := {
  g_len : forall t c, steps cstep c0 t c -> wfin t -> length (recvs t) <= n -> length (sents t) <= m;
  g_once : forall t c a c', steps cstep c0 t c -> wfin t -> length (recvs t) <= n -> shut t = true -> cstep c a c' ->
    match a with KSend _ | KClose => False | _ => True end;
  g_prog : forall t c, steps cstep c0 t c -> wfin t -> length (recvs t) <= n ->
    fin c \/ (exists a c', own a = true /\ cstep c a c') \/ (forall o, exists c', cstep c (KRecv o) c');
  g_fin : forall t c, steps cstep c0 t c -> wfin t -> length (recvs t) <= n -> fin c ->
    (cl = true -> shut t = true) /\ (rd = true -> seen t = true) /\ R (recvs t) (sents t) (kcalls t);
  g_term : forall t c, steps cstep c0 t c -> wfin t -> length (recvs t) <= n -> Acc tstep c;
  g_bad : forall t c, steps cstep c0 t c -> wfin t -> length (recvs t) <= n -> ~ bad c;
  g_mute : forall t c, steps cstep c0 t c -> wfin t -> length (recvs t) <= n -> cl = false -> sents t = [] /\ shut t = false }.

(** ** The chain *)
Notation Rel := (list V -> list V -> list E -> Prop).
Variable tm : bool. (* the last group may be a terminal operation, which does not close *)
Inductive cinv : nat -> chan -> list V -> list stg -> list Rel -> (nat -> list E) -> list V -> Prop :=
| ci_nil : forall n ch total cs out, total = out ++ cbuf ch -> cinv n ch total [] [] cs out
| ci_cons : forall rd cl n c0 m R t c ch ch' total r Rs cs out,
    good rd cl n c0 m R -> steps cstep c0 t c -> wfin t -> length total <= n -> total = recvs t ++ cbuf ch ->
    (seen t = true -> ccl ch = true /\ cbuf ch = []) -> (rd = true \/ (ccl ch = true /\ cbuf ch = [])) ->
    shut t = ccl ch' -> kcalls t = cs 0 -> (cl = true \/ (r = [] /\ tm = true)) ->
    cinv m ch' (sents t) r Rs (fun i => cs (S i)) out ->
    cinv n ch total ((c, ch') :: r) (R :: Rs) cs out.

Definition lout (l : plabel) : list V := match l with POut v => [v] | _ => [] end.
Definition lcall (i : nat) (l : plabel) : list E := match l with PCallL j e => if i =? j then [e] else [] | _ => [] end.

Lemma lcall_shift : forall l i, lcall (S i) (shift l) = lcall i l.
Proof. intros l i; destruct l; reflexivity. Qed.
Lemma lcall_shift0 : forall l, lcall 0 (shift l) = [].
Proof. intros []; reflexivity. Qed.
Lemma lout_shift : forall l, lout (shift l) = lout l.
Proof. intros []; reflexivity. Qed.

Lemma cinv_cs : forall n ch total s Rs cs out, cinv n ch total s Rs cs out -> forall cs', (forall i, cs' i = cs i) -> cinv n ch total s Rs cs' out.
Proof.
  induction 1; intros cs' Hc; [now constructor|].
  econstructor; eauto. now rewrite Hc.
Qed.
Lemma cinv_push : forall n k b v total s Rs cs out, cinv n (Ch k b false) total s Rs cs out -> length (total ++ [v]) <= n ->
  cinv n (Ch k (b ++ [v]) false) (total ++ [v]) s Rs cs out.
Proof.
  intros n k b v total s Rs cs out H L. remember (Ch k b false) as ch eqn:Ec. destruct H; subst ch.
  - constructor. subst. cbn. now rewrite app_assoc.
  - cbn in *. econstructor; eauto; cbn.
    + subst. now rewrite app_assoc.
    + intros Hs. destruct (H4 Hs). discriminate.
    + destruct H5 as [?|[? ?]]; [auto|discriminate].
Qed.
Lemma cinv_close : forall n k b total s Rs cs out, cinv n (Ch k b false) total s Rs cs out -> cinv n (Ch k b true) total s Rs cs out.
Proof.
  intros n k b total s Rs cs out H. remember (Ch k b false) as ch eqn:Ec. destruct H; subst ch.
  - now constructor.
  - cbn in *. econstructor; eauto; cbn.
    + intros Hs. destruct (H4 Hs). discriminate.
    + destruct H5 as [?|[? ?]]; [auto|discriminate].
Qed.

Lemma snoc_steps : forall c0 t c a c', steps (@cstep V E) c0 t c -> cstep c a c' -> steps cstep c0 (t ++ [a]) c'.
Proof. intros. eapply steps_snoc; eauto. Qed.

Lemma recvs_len : forall t (b total : list V) n, total = recvs t ++ b -> length total <= n -> length (recvs t) <= n.
Proof. intros t b total n -> L. rewrite app_length in L. lia. Qed.

(** Steps keep the invariant; the input channel only loses what was received *)
Lemma cinv_step : forall ch s l ch' s', pstep ch s l ch' s' -> forall n total Rs cs out, cinv n ch total s Rs cs out ->
  ccl ch' = ccl ch /\ forall cs', (forall i, cs' i = cs i ++ lcall i l) -> cinv n ch' total s' Rs cs' (out ++ lout l).
Proof.
  induction 1 as [ch c c' o r St|ch c c' o r e St|k v b cl c c' o r St|k c c' o r St|ch k b v c c' r St Lb|ch v c c' d d' o r St St2|ch k b c c' r St
    |k v b cl|ch v c c' St|k|ch c o o' r r' l St IH]; intros n total Rs cs out I; inversion I; subst;
    try match goal with H : steps cstep _ ?t _ |- _ => rename t into t0; rename H into Hs end;
    try (match goal with H : recvs ?t ++ ?b = _ |- _ => symmetry in H end).
  - split; auto. intros cs' Hc. cbn [lout]. rewrite (app_nil_r out). eapply ci_cons with (t := t0 ++ [KInt]); eauto.
    + eapply snoc_steps; eauto.
    + apply wfin_snoc; auto.
    + rewrite recvs_app. cbn. now rewrite app_nil_r.
    + rewrite seen_app. cbn. now rewrite orb_false_r.
    + rewrite shut_app. cbn. now rewrite orb_false_r.
    + rewrite kcalls_app, Hc. cbn. congruence.
    + rewrite sents_app. cbn. rewrite app_nil_r. eapply cinv_cs; eauto. intros i. rewrite Hc. cbn. apply app_nil_r.
  - split; auto. intros cs' Hc. cbn [lout]. rewrite (app_nil_r out). eapply ci_cons with (t := t0 ++ [KCall e]); eauto.
    + eapply snoc_steps; eauto.
    + apply wfin_snoc; auto.
    + rewrite recvs_app. cbn. now rewrite app_nil_r.
    + rewrite seen_app. cbn. now rewrite orb_false_r.
    + rewrite shut_app. cbn. now rewrite orb_false_r.
    + rewrite kcalls_app, Hc. cbn. congruence.
    + rewrite sents_app. cbn. rewrite app_nil_r. eapply cinv_cs; eauto. intros i. rewrite Hc. cbn. apply app_nil_r.
  - split; auto. intros cs' Hc. cbn [cbuf ccl lout] in *. rewrite (app_nil_r out). eapply ci_cons with (t := t0 ++ [KRecv (Some v)]); eauto; cbn [cbuf ccl].
    + eapply snoc_steps; eauto.
    + apply wfin_snoc; auto. intros Hseen. match goal with H : seen t0 = true -> _ |- _ => destruct (H Hseen); discriminate end.
    + rewrite recvs_app. cbn. now rewrite <- app_assoc.
    + rewrite seen_app. cbn. rewrite orb_false_r. intros Hseen. match goal with H : seen t0 = true -> _ |- _ => destruct (H Hseen); discriminate end.
    + match goal with H : rd = true \/ _ |- _ => destruct H as [?|[? ?]]; [auto|discriminate] end.
    + rewrite shut_app. cbn. now rewrite orb_false_r.
    + rewrite kcalls_app, Hc. cbn. congruence.
    + rewrite sents_app. cbn. rewrite app_nil_r. eapply cinv_cs; eauto. intros i. rewrite Hc. cbn. apply app_nil_r.
  - split; auto. intros cs' Hc. cbn [cbuf ccl lout] in *. rewrite (app_nil_r out). eapply ci_cons with (t := t0 ++ [KRecv None]); eauto; cbn [cbuf ccl].
    + eapply snoc_steps; eauto.
    + apply wfin_snoc; auto.
    + rewrite recvs_app. cbn. now rewrite !app_nil_r.
    + rewrite shut_app. cbn. now rewrite orb_false_r.
    + rewrite kcalls_app, Hc. cbn. congruence.
    + rewrite sents_app. cbn. rewrite app_nil_r. eapply cinv_cs; eauto. intros i. rewrite Hc. cbn. apply app_nil_r.
  - split; auto. intros cs' Hc. cbn [cbuf ccl lout] in *. rewrite (app_nil_r out).
    assert (Hs' : steps cstep c0 (t0 ++ [KSend v]) c') by (eapply snoc_steps; eauto).
    assert (Hw : wfin (t0 ++ [KSend v])) by (apply wfin_snoc; auto).
    assert (Hr : recvs (t0 ++ [KSend v]) = recvs t0) by (rewrite recvs_app; cbn; apply app_nil_r).
    eapply ci_cons with (t := t0 ++ [KSend v]); eauto; cbn [cbuf ccl].
    + now rewrite Hr.
    + rewrite seen_app. cbn. now rewrite orb_false_r.
    + rewrite shut_app. cbn. now rewrite orb_false_r.
    + rewrite kcalls_app, Hc. cbn. congruence.
    + rewrite sents_app. cbn. apply cinv_push.
      * eapply cinv_cs; eauto. intros i. rewrite Hc. cbn. apply app_nil_r.
      * replace (sents t0 ++ [v]) with (sents (t0 ++ [KSend v])) by (rewrite sents_app; reflexivity).
        eapply g_len; eauto. rewrite Hr. eapply recvs_len; eauto.
  - split; auto. intros cs' Hc. cbn [cbuf ccl lout] in *. rewrite (app_nil_r out).
    assert (Hs' : steps cstep c0 (t0 ++ [KSend v]) c') by (eapply snoc_steps; eauto).
    assert (Hw : wfin (t0 ++ [KSend v])) by (apply wfin_snoc; auto).
    assert (Hr : recvs (t0 ++ [KSend v]) = recvs t0) by (rewrite recvs_app; cbn; apply app_nil_r).
    assert (Hl : length (sents t0 ++ [v]) <= m).
    { replace (sents t0 ++ [v]) with (sents (t0 ++ [KSend v])) by (rewrite sents_app; reflexivity).
      eapply g_len; eauto. rewrite Hr. eapply recvs_len; eauto. }
    eapply ci_cons with (t := t0 ++ [KSend v]); eauto; cbn [cbuf ccl].
    + now rewrite Hr.
    + rewrite seen_app. cbn. now rewrite orb_false_r.
    + rewrite shut_app. cbn. now rewrite orb_false_r.
    + rewrite kcalls_app, Hc. cbn. congruence.
    + match goal with H : cl = true \/ _ |- _ => destruct H as [?|[? ?]]; [auto|discriminate] end.
    + rewrite sents_app. cbn.
      match goal with H : cinv m _ (sents t0) _ _ _ _ |- _ => inversion H; subst end. cbn [cbuf ccl lout] in *.
      match goal with H : steps cstep _ ?t d |- _ => rename t into t1; rename H into Hs1 end.
      eapply ci_cons with (t := t1 ++ [KRecv (Some v)]); eauto; cbn [cbuf ccl].
      * eapply snoc_steps; eauto.
      * apply wfin_snoc; auto. intros Hseen. match goal with H : seen t1 = true -> _ |- _ => destruct (H Hseen); discriminate end.
      * rewrite recvs_app. cbn. rewrite app_nil_r. f_equal. rewrite app_nil_r in *. assumption.
      * rewrite seen_app. cbn. rewrite orb_false_r. intros Hseen. match goal with H : seen t1 = true -> _ |- _ => destruct (H Hseen); discriminate end.
      * rewrite shut_app. cbn. now rewrite orb_false_r.
      * rewrite kcalls_app, Hc. cbn. congruence.
      * rewrite sents_app. cbn. rewrite app_nil_r. eapply cinv_cs; eauto. intros i. rewrite Hc. cbn. apply app_nil_r.
  - split; auto. intros cs' Hc. cbn [cbuf ccl lout] in *. rewrite (app_nil_r out).
    eapply ci_cons with (t := t0 ++ [KClose]); eauto; cbn [cbuf ccl].
    + eapply snoc_steps; eauto.
    + apply wfin_snoc; auto.
    + rewrite recvs_app. cbn. now rewrite app_nil_r.
    + rewrite seen_app. cbn. now rewrite orb_false_r.
    + rewrite shut_app. cbn. now rewrite orb_true_r.
    + rewrite kcalls_app, Hc. cbn. congruence.
    + rewrite sents_app. cbn. rewrite app_nil_r. apply cinv_close. eapply cinv_cs; eauto. intros i. rewrite Hc. cbn. apply app_nil_r.
  - split; auto. intros cs' Hc. constructor. cbn [cbuf ccl lout] in *. now rewrite <- app_assoc.
  - split; auto. intros cs' Hc. cbn [cbuf ccl lout] in *.
    assert (Hs' : steps cstep c0 (t0 ++ [KSend v]) c') by (eapply snoc_steps; eauto).
    assert (Hw : wfin (t0 ++ [KSend v])) by (apply wfin_snoc; auto).
    assert (Hr : recvs (t0 ++ [KSend v]) = recvs t0) by (rewrite recvs_app; cbn; apply app_nil_r).
    eapply ci_cons with (t := t0 ++ [KSend v]); eauto; cbn [cbuf ccl].
    + now rewrite Hr.
    + rewrite seen_app. cbn. now rewrite orb_false_r.
    + rewrite shut_app. cbn. now rewrite orb_false_r.
    + rewrite kcalls_app, Hc. cbn. congruence.
    + match goal with H : cinv m _ (sents t0) _ _ _ _ |- _ => inversion H; subst end. cbn [cbuf ccl lout] in *. constructor. cbn.
      rewrite sents_app. cbn. rewrite app_nil_r in *. congruence.
  - split; auto. intros cs' Hc. constructor. cbn [cbuf ccl lout] in *. now rewrite !app_nil_r.
  - match goal with H : cinv _ o _ _ _ _ _ |- _ => destruct (IH _ _ _ _ _ H) as [Ec Hi] end.
    split; auto. intros cs' Hc. rewrite lout_shift.
    eapply ci_cons with (t := t0); eauto.
    + rewrite Hc, lcall_shift0, app_nil_r. assumption.
    + match goal with H : cl = true \/ _ |- _ => destruct H as [?|[-> ?]]; [auto|] end. right. inversion St; subst; auto.
    + apply Hi. intros i. rewrite Hc, lcall_shift. reflexivity.
Qed.

(** ** Progress *)
Notation hasin s := (match s with [] => True | (c, _) :: _ => forall o, exists c', cstep c (KRecv o) c' end).
Lemma prog : forall n ch total s Rs cs out, cinv n ch total s Rs cs out ->
  (exists l ch' s', l <> POutEnd /\ pstep ch s l ch' s') \/
  (over (ch, s) /\ ((ccl ch = true) \/ (exists c o, s = [(c, o)] /\ ccl o = false /\ (ccl ch = true)))) \/
  (cbuf ch = [] /\ ccl ch = false /\ hasin s).
Proof.
  induction 1 as [n ch total cs out Et|rd cl n c0 m R t c ch o total r Rs cs out Hg Hs Hw Hl Et Hseen Hrd Hsh Hk Hcl Hi IH].
  - destruct ch as [k [|v b] [|]]; cbn.
    + right. left. split; [split; cbn; auto|auto].
    + right. right. auto.
    + left. eexists _, _, _. split; [|apply HOut]. discriminate.
    + left. eexists _, _, _. split; [|apply HOut]. discriminate.
  - assert (Hlr : length (recvs t) <= n) by (eapply recvs_len; eauto).
    assert (Hin : (forall o0, exists c', cstep c (KRecv o0) c') ->
      (exists l ch' s', l <> POutEnd /\ pstep ch ((c, o) :: r) l ch' s') \/ (cbuf ch = [] /\ ccl ch = false /\ (forall o0, exists c', cstep c (KRecv o0) c'))).
    { intros Hc. destruct ch as [k [|v b] [|]]; cbn.
      - destruct (Hc None) as [c' St]. left. eexists _, _, _. split; [|apply HRecvEnd; eauto]. discriminate.
      - right. auto.
      - destruct (Hc (Some v)) as [c' St]. left. eexists _, _, _. split; [|apply HRecv; eauto]. discriminate.
      - destruct (Hc (Some v)) as [c' St]. left. eexists _, _, _. split; [|apply HRecv; eauto]. discriminate. }
    assert (Hfin : fin c -> ccl ch = true /\ cbuf ch = []).
    { intros F. destruct (g_fin _ _ _ _ _ _ Hg _ _ Hs Hw Hlr F) as (_ & Hr & _). destruct Hrd as [E1|E1]; auto. }
    destruct IH as [(l & o' & r' & Nl & St)|[((Ov1 & Ov2) & Hc)|(Eb & Ec & Hh)]].
    + left. exists (shift l), ch, ((c, o') :: r'). split; [destruct l; cbn; congruence|]. now apply HLater.
    + cbn in Ov1, Ov2. assert (Ec : ccl o = true) by (destruct Hc as [?|(? & ? & _ & _ & ?)]; auto). clear Hc.
      destruct (g_prog _ _ _ _ _ _ Hg _ _ Hs Hw Hlr) as [F|[(a & c' & Ho & St)|Hc]].
      * destruct (Hfin F). right. left. split; auto. split; cbn; auto.
      * pose proof (g_once _ _ _ _ _ _ Hg _ _ _ _ Hs Hw Hlr (eq_trans Hsh Ec) St) as N.
        destruct a as [|e|?|v|]; try contradiction; try discriminate; left; eexists _, _, _; (split; [|first [apply HInt; eassumption|apply HCall; eassumption]]; discriminate).
      * destruct (Hin Hc); auto.
    + destruct (g_prog _ _ _ _ _ _ Hg _ _ Hs Hw Hlr) as [F|[(a & c' & Ho & St)|Hc]].
      * destruct (g_fin _ _ _ _ _ _ Hg _ _ Hs Hw Hlr F) as (Hc1 & _). destruct Hcl as [Hcl|[-> _]].
        -- specialize (Hc1 Hcl). congruence.
        -- destruct (Hfin F). right. left. split; [split; cbn; auto|]. auto.
      * left. rewrite Ec in Hsh. clear Hin Hi. destruct o as [k b cl0]. cbn in *. subst b cl0.
        destruct a as [|e|?|v|]; try discriminate.
        -- eexists _, _, _. split; [|apply HInt; eauto]. discriminate.
        -- eexists _, _, _. split; [|apply HCall; eauto]. discriminate.
        -- destruct k as [|k].
           ++ destruct r as [|[d o2] r].
              ** eexists _, _, _. split; [|apply HOutHand; eauto]. discriminate.
              ** destruct (Hh (Some v)) as [d' St2]. eexists _, _, _. split; [|eapply HHand; eauto]. discriminate.
           ++ eexists _, _, _. split; [|apply HSend; eauto; cbn; lia]. discriminate.
        -- eexists _, _, _. split; [|apply HClose; eauto]. discriminate.
      * destruct (Hin Hc); auto.
Qed.

(** ** Termination *)
Definition down (s' s : chan * list stg) : Prop := exists l, l <> POutEnd /\ pmove s l s'.
Lemma cinv_pmove : forall n ch total s Rs cs out l ch' s', cinv n ch total s Rs cs out -> pstep ch s l ch' s' ->
  exists cs', cinv n ch' total s' Rs cs' (out ++ lout l).
Proof.
  intros. exists (fun i => cs i ++ lcall i l). eapply cinv_step; eauto.
Qed.
Lemma shift_end : forall l : plabel, shift l <> POutEnd -> l <> POutEnd.
Proof. intros l H; destruct l; cbn in *; congruence. Qed.

Lemma cinv_acc : forall n ch total s R Rs cs out, cinv n ch total s (R :: Rs) cs out ->
  exists c o r, s = (c, o) :: r /\ Acc tstep c /\ exists m tot' cs', cinv m o tot' r Rs cs' out.
Proof.
  intros n ch total s R Rs cs out I.
  inversion I as [|rd cl n' c0 m R' t c ch0 o tot r Rs' cs0 out0 Hg Hs Hw Hl Et Hseen Hrd Hsh Hkc Hcl Hi]; subst.
  exists c, o, r. split; auto. split; [eapply g_term; eauto; eapply recvs_len; eauto|]. eauto.
Qed.

Lemma term : forall Rs n ch total s cs out, cinv n ch total s Rs cs out -> Acc down (ch, s).
Proof.
  induction Rs as [|R Rs IHR].
  - intros n ch total s cs out I. inversion I; subst. destruct ch as [k b cl]. clear. induction b as [|v b IHb].
    + constructor. intros [ch' s'] (l & Nl & St). unfold pmove in St; cbn [fst snd] in St. inversion St; subst. congruence.
    + constructor. intros [ch' s'] (l & Nl & St). unfold pmove in St; cbn [fst snd] in St. inversion St; subst. exact IHb.
  - intros n ch total s cs out I.
    remember (length (cbuf ch)) as k eqn:Ek. revert ch s cs out I Ek.
    induction k as [k IHk] using lt_wf_ind. intros ch s cs out I Ek. subst k.
    destruct (cinv_acc _ _ _ _ _ _ _ _ I) as (c & o & r & -> & Ac & _).
    revert cs out o r I. induction Ac as [c _ IHc]. intros cs out o r I.
    destruct (cinv_acc _ _ _ _ _ _ _ _ I) as (c1 & o1 & r1 & Es & _ & m & tot' & cs1 & Hi). injection Es as <- <- <-.
    pose proof (IHR _ _ _ _ _ _ Hi) as Ar. clear m tot' cs1 Hi.
    match type of Ar with Acc _ ?x => remember x as st eqn:Est end. revert o r Est cs out I.
    induction Ar as [st _ IHst]. intros o r -> cs out I.
    constructor. intros [ch' s'] (l & Nl & St). unfold pmove in St. cbn [fst snd] in St.
    destruct (cinv_pmove _ _ _ _ _ _ _ _ _ _ I St) as (cs' & I').
    inversion St; subst; cbn [cbuf] in *.
    + eapply IHc; [|exact I']. exists KInt. auto.
    + eapply IHc; [|exact I']. exists (KCall e). auto.
    + eapply IHk; [| exact I'|reflexivity]. cbn. lia.
    + eapply IHc; [|exact I']. exists (KRecv None). auto.
    + eapply IHc; [|exact I']. exists (KSend v). auto.
    + eapply IHc; [|exact I']. exists (KSend v). auto.
    + eapply IHc; [|exact I']. exists KClose. auto.
    + eapply IHc; [|exact I']. exists (KSend v). auto.
    + eapply IHst; [|reflexivity|exact I']. exists l0. split; [now apply shift_end|auto].
Qed.

Lemma down_halts : forall s, Acc down s -> halts s.
Proof. induction 1 as [s _ IH]. constructor. intros l s' Nl St. apply IH. exists l. auto. Qed.

(** ** Safety *)
Lemma safe : forall n ch total s Rs cs out, cinv n ch total s Rs cs out -> Forall (fun x => ~ pfault x) s.
Proof.
  induction 1 as [|rd cl n c0 m R t c ch o total r Rs cs out Hg Hs Hw Hl Et Hseen Hrd Hsh Hk Hcl Hi IH]; constructor; auto.
  assert (Hlr : length (recvs t) <= n) by (eapply recvs_len; eauto).
  intros [Hb|(Hc & a & c' & St & Ha)]; cbn in *.
  - eapply g_bad; eauto.
  - rewrite <- Hsh in Hc. pose proof (g_once _ _ _ _ _ _ Hg _ _ _ _ Hs Hw Hlr Hc St). destruct a; auto.
Qed.

(** ** The result at the end *)
Fixpoint rel (Rs : list Rel) (cs : nat -> list E) (xs ys : list V) : Prop :=
  match Rs with
  | [] => ys = xs
  | R :: Rs' => exists zs, R xs zs (cs 0) /\ rel Rs' (fun i => cs (S i)) zs ys
  end.
Lemma over_rel : forall n ch total s Rs cs out, cinv n ch total s Rs cs out -> over (ch, s) -> rel Rs cs total out.
Proof.
  induction 1 as [n ch total cs out Et|rd cl n c0 m R t c ch o total r Rs cs out Hg Hs Hw Hl Et Hseen Hrd Hsh Hk Hcl Hi IH]; intros [O1 O2]; cbn in *.
  - rewrite O1, app_nil_r in Et. auto.
  - inversion O2 as [|? ? [F1 F2] O3]; subst. cbn in *.
    assert (Hlr : length (recvs t) <= n) by (eapply recvs_len; eauto).
    destruct (g_fin _ _ _ _ _ _ Hg _ _ Hs Hw Hlr F1) as (_ & _ & HR). exists (sents t). rewrite <- Hk. split.
    + now rewrite O1, app_nil_r.
    + apply IH. split; auto.
Qed.

(** what is sent before the end stays *)
Lemma complete : forall n Rs total ch s cs out, cinv n ch total s Rs cs out -> ccl ch = true ->
  exists tr ch' s' cs', steps pmove (ch, s) tr (ch', s') /\ cinv n ch' total s' Rs cs' (out ++ flat_map lout tr) /\
    (forall i, cs' i = cs i ++ flat_map (lcall i) tr) /\ over (ch', s').
Proof.
  intros n Rs total ch s cs out I Hc. pose proof (term _ _ _ _ _ _ _ I) as Ac. match type of Ac with Acc _ ?x => remember x as st eqn:Est end.
  revert ch s Est cs out I Hc. induction Ac as [st _ IH]. intros ch s -> cs out I Hc.
  destruct (prog _ _ _ _ _ _ _ I) as [(l & ch' & s' & Nl & St)|[[Ov _]|(_ & F & _)]]; [| |congruence].
  - destruct (cinv_step _ _ _ _ _ St _ _ _ _ _ I) as [Ec Hi].
    specialize (Hi (fun i => cs i ++ lcall i l) (fun i => eq_refl)).
    destruct (IH (ch', s') ltac:(exists l; auto) _ _ eq_refl _ _ Hi ltac:(congruence)) as (tr & ch2 & s2 & cs2 & Hs & I2 & Hcs & Ov).
    exists (l :: tr), ch2, s2, cs2. split; [apply (steps_cons _ _ _ (ch', s')); [exact St|exact Hs]|]. split; [cbn; rewrite <- app_assoc in I2; exact I2|]. split; [|exact Ov].
    intros i. rewrite Hcs. cbn. now rewrite <- app_assoc.
  - exists [], ch, s, cs. split; [apply steps_nil|]. cbn. rewrite app_nil_r. split; auto. split; auto. intros i. now rewrite app_nil_r.
Qed.

(** ** One goroutine *)
Definition toact (a : cact) : list (act V E) :=
  match a with KInt => [] | KCall e => [AcC e] | KRecv o => [AcR o] | KSend v => [AcS v] | KClose => [AcX] end.
Definition acts_of (t : list cact) : list (act V E) := flat_map toact t.
Lemma acts_of_app : forall a b, acts_of (a ++ b) = acts_of a ++ acts_of b.
Proof. intros; apply flat_map_app. Qed.
Lemma outs_acts : forall t, outs (acts_of t) = sents t.
Proof. induction t as [|[|e|o|v|] t IH]; cbn; auto. unfold outs in IH. now f_equal. Qed.
Lemma calls_acts : forall t, calls (acts_of t) = kcalls t.
Proof. induction t as [|[|e|o|v|] t IH]; cbn; auto. unfold calls in IH. now f_equal. Qed.
Lemma outs_app2 : forall a b : list (act V E), outs (a ++ b) = outs a ++ outs b.
Proof. intros; apply flat_map_app. Qed.

Lemma seq_run : forall nd p N, (forall xs, length xs <= N -> exists es, ev nd false p xs es) ->
  forall t c, steps cstep (CSeq p) t c -> wfin t -> exists p', c = CSeq p' /\
    forall ws, length (recvs t ++ ws) <= N -> (seen t = true -> ws = []) ->
    exists es', ev nd (shut t) p' ws es' /\ ev nd false p (recvs t ++ ws) (acts_of t ++ es').
Proof.
  intros nd p N Hp t c Hs. induction Hs as [|t c1 a c2 Hs IH St]; intros Hw.
  - exists p. split; auto. intros ws L _. cbn in *. destruct (Hp ws L) as (es & H). eauto.
  - apply wfin_snoc_inv in Hw. destruct Hw as [Hw Ha]. destruct (IH Hw) as (p1 & -> & H1). clear IH.
    inversion St; subst; eexists; (split; [reflexivity|]); intros ws L Hseen; rewrite recvs_app in *; rewrite seen_app in Hseen; rewrite shut_app, acts_of_app; cbn in L, Hseen; cbn [recvs flat_map app acts_of toact shut existsb] in *; rewrite ?app_nil_r, ?orb_false_r, <- ?app_assoc in *.
    + destruct o as [x|].
      * cbn [app existsb orb] in *. rewrite ?orb_false_r in *. rewrite <- ?app_assoc in *. cbn [app] in *.
        destruct (H1 (x :: ws)) as (es & H2 & H3); auto.
        { intros Hx. specialize (Ha Hx). discriminate. }
        inversion H2; subst. eexists. (split; [eassumption|]). rewrite <- app_assoc; exact H3.
      * cbn [app existsb orb] in *. rewrite orb_true_r in Hseen. specialize (Hseen eq_refl). subst ws. rewrite ?app_nil_r in *.
        destruct (H1 []) as (es & H2 & H3); rewrite ?app_nil_r; auto. rewrite app_nil_r in H3.
        inversion H2; subst. eexists. (split; [eassumption|]). rewrite <- app_assoc; exact H3.
    + destruct (H1 ws) as (es & H2 & H3); auto. inversion H2; subst. eexists. (split; [eassumption|]). rewrite <- app_assoc; exact H3.
    + destruct (H1 ws) as (es & H2 & H3); auto. inversion H2; subst. eexists. (split; [eassumption|]). rewrite <- app_assoc; exact H3.
    + destruct (H1 ws) as (es & H2 & H3); auto. inversion H2; subst. eexists. (split; [eassumption|]). rewrite <- app_assoc; exact H3.
Qed.

Lemma ev_acc : forall nd cl p xs es, ev nd cl p xs es -> xs = [] -> Acc tstep (CSeq p).
Proof.
  induction 1; intros Ex; subst; try discriminate; constructor; intros c' (a & Fa & St); inversion St; subst; auto.
  destruct o; [discriminate|auto].
Qed.

Lemma seq_good : forall rd nd n N m p,
  (forall xs, length xs <= N -> exists es, ev nd false p xs es) ->
  n <= N -> (rd = true -> S n <= N) ->
  (forall xs es, length xs <= n -> ev nd false p xs es -> length (outs es) <= m) ->
  (nd = false -> forall xs es, length xs <= n -> ev nd false p xs es -> outs es = [] /\ ~ In AcX es) ->
  good rd nd n (CSeq p) m (fun xs ys cs => exists es, ev nd false p xs es /\ ys = outs es /\ cs = calls es).
Proof.
  intros rd nd n N m p Hp LN Hrd Hm Hmute.
  assert (G : forall t c, steps cstep (CSeq p) t c -> wfin t -> length (recvs t) <= n -> exists p' es',
    c = CSeq p' /\ ev nd (shut t) p' [] es' /\ ev nd false p (recvs t) (acts_of t ++ es')).
  { intros t c Hs Hw L. destruct (seq_run nd p N Hp _ _ Hs Hw) as (p' & -> & H). destruct (H []) as (es' & H1 & H2); rewrite ?app_nil_r; auto; try lia.
    rewrite app_nil_r in H2. eauto 6. }
  constructor.
  - intros t c Hs Hw L. destruct (G _ _ Hs Hw L) as (p' & es' & -> & H1 & H2). apply Hm in H2; auto.
    rewrite outs_app2, outs_acts, app_length in H2. lia.
  - intros t c a c' Hs Hw L Sh St. destruct (G _ _ Hs Hw L) as (p' & es' & -> & H1 & H2). rewrite Sh in H1.
    inversion H1; subst; inversion St; subst; auto.
  - intros t c Hs Hw L. destruct (G _ _ Hs Hw L) as (p' & es' & -> & H1 & H2).
    inversion H1; subst.
    + right. left. eexists _, _. split; [|apply SSend]. reflexivity.
    + right. right. intros o. eexists. apply SRecv.
    + right. left. eexists _, _. split; [|apply SClose]. reflexivity.
    + right. left. eexists _, _. split; [|apply SCall]. reflexivity.
    + left. reflexivity.
  - intros t c Hs Hw L F. destruct (G _ _ Hs Hw L) as (p' & es' & -> & H1 & H2). cbn in F. subst p'.
    inversion H1; subst. rewrite app_nil_r in H2. split; auto. split.
    + intros Hr. destruct (seen t) eqn:Es; auto. exfalso. destruct (seq_run nd p N Hp _ _ Hs Hw) as (p' & E1 & H3). injection E1 as <-.
      destruct (H3 [x0]) as (es' & H4 & _); [rewrite app_length; cbn; specialize (Hrd Hr); lia|congruence|]. inversion H4.
    + exists (acts_of t). now rewrite outs_acts, calls_acts.
  - intros t c Hs Hw L. destruct (G _ _ Hs Hw L) as (p' & es' & -> & H1 & H2). eapply ev_acc; eauto.
  - intros t c Hs Hw L. destruct (G _ _ Hs Hw L) as (p' & es' & -> & H1 & H2). cbn. intros ->. inversion H1.
  - intros t c Hs Hw L Ec. destruct (G _ _ Hs Hw L) as (p' & es' & -> & H1 & H2). destruct (Hmute Ec _ _ L H2) as [H3 H4].
    rewrite outs_app2, outs_acts in H3. apply app_eq_nil in H3. destruct H3 as [H3 _]. split; auto.
    destruct (shut t) eqn:Sh; auto. exfalso. apply H4. apply in_or_app. left. apply existsb_exists in Sh. destruct Sh as ([|e|o|v|] & H5 & H6); try discriminate.
    unfold acts_of. apply in_flat_map. exists KClose. cbn. auto.
Qed.

(** ** Walk *)
Section WalkC.
Variable f : V -> list V.
Variable w : nat.
Hypothesis w_pos : 1 <= w.
Notation prg := (fun x => map (@ASend V) (f x)).
Notation fst_ := (fstep prg (Some w) w).
Lemma outl_sends : forall l : list V, outl (map ASend l) = l.
Proof. induction l; cbn; auto. unfold outl in IHl. now f_equal. Qed.
Lemma lim_ok : forall w', Some w = Some w' -> 1 <= w'.
Proof. intros w' H. injection H as <-. exact w_pos. Qed.

Lemma walk_run : forall t c, steps cstep (CWalk f w DTop 0 0 []) t c -> wfin t -> exists d p g l, c = CWalk f w d p g l /\ kcalls t = [] /\
  forall ws, (seen t = true -> ws = []) -> exists tr, steps fst_ (finit (recvs t ++ ws)) tr (Fan ws d p g l [] (shut t)) /\ fdelivered tr = sents t.
Proof.
  intros t c Hs. induction Hs as [|t c1 a c2 Hs IH St]; intros Hw.
  - eexists _, _, _, _. split; [reflexivity|]. split; auto. intros ws _. exists []. split; [apply steps_nil|reflexivity].
  - apply wfin_snoc_inv in Hw. destruct Hw as [Hw Ha]. destruct (IH Hw) as (d & p & g & l & -> & Hk & H1). clear IH.
    assert (One : forall ws tr d' p' g' l' b' lb, steps fst_ (finit (recvs t ++ ws)) tr (Fan ws d p g l [] (shut t)) /\ fdelivered tr = sents t ->
      fst_ (Fan ws d p g l [] (shut t)) lb (Fan ws d' p' g' l' [] b') -> fdelivered [lb] = [] ->
      exists tr', steps fst_ (finit (recvs t ++ ws)) tr' (Fan ws d' p' g' l' [] b') /\ fdelivered tr' = sents t).
    { intros ws tr d' p' g' l' b' lb [R D] S0 E0. exists (tr ++ [lb]). split; [eapply steps_snoc; eauto|]. now rewrite fdel_app, E0, app_nil_r. }
    inversion St; subst; eexists _, _, _, _; (split; [reflexivity|]); (split; [rewrite kcalls_app; cbn; now rewrite Hk|]); intros ws Hseen;
      rewrite recvs_app in *; rewrite seen_app in Hseen; rewrite shut_app, sents_app; cbn [recvs sents shut seen flat_map existsb app] in *; rewrite ?app_nil_r, ?orb_false_r in *.
    + destruct (H1 ws) as (tr & R); auto. eapply One; [exact R|eapply FAcq; eauto|reflexivity].
    + rewrite <- app_assoc. cbn. destruct (H1 (x :: ws)) as (tr & R & D).
      { intros Hx. specialize (Ha Hx). discriminate. }
      exists (tr ++ [LTau]). split; [eapply steps_snoc; [exact R|apply FRecv]|]. now rewrite fdel_app, app_nil_r.
    + cbn in Hseen. rewrite orb_true_r in Hseen. specialize (Hseen eq_refl). subst ws.
      destruct (H1 []) as (tr & R); auto. eapply One; [exact R|eapply FRecvEnd; eauto|reflexivity].
    + destruct (H1 ws) as (tr & R); auto. eapply One; [exact R|eapply FRel; eauto|reflexivity].
    + destruct (H1 ws) as (tr & R); auto. eapply One; [exact R|eapply FSpawn; eauto|reflexivity].
    + destruct (H1 ws) as (tr & R); auto. eapply One; [exact R|eapply (FStart prg); eauto|reflexivity].
    + destruct (H1 ws) as (tr & R & D); auto. pose proof (no_fault _ _ _ _ _ _ R) as NF.
      destruct (shut t) eqn:Sh. { exfalso. apply NF. left. cbn. split; auto. left. eauto 8. }
      exists ((tr ++ [LSend (length l1) v]) ++ [LOut v]). split.
      * eapply steps_snoc; [eapply steps_snoc; [exact R|apply FSend; cbn; lia]|]. cbn. apply FOut.
      * rewrite !fdel_app, D. cbn; now rewrite app_nil_r.
    + destruct (H1 ws) as (tr & R); auto. eapply One; [exact R|eapply FRet; eauto|reflexivity].
    + destruct (H1 ws) as (tr & R); auto. eapply One; [exact R|eapply FDone; eauto|reflexivity].
    + destruct (H1 ws) as (tr & R); auto. eapply One; [exact R|eapply FFree; eauto|reflexivity].
    + destruct (H1 ws) as (tr & R); auto. pose proof (no_fault _ _ _ _ _ _ (proj1 R)) as NF.
      destruct (shut t) eqn:Sh. { exfalso. apply NF. left. cbn. auto. }
      eapply One; [exact R|eapply FClose; eauto|reflexivity].
Qed.

Definition nt (x : wst V V) : Prop := match x with WRun _ a => exists l, a = map ASend l | _ => True end.
Lemma walk_nt : forall t c, steps (@cstep V E) (CWalk f w DTop 0 0 []) t c -> match c with CWalk _ _ _ _ _ l => Forall nt l | _ => True end.
Proof.
  intros t c Hs. induction Hs as [|t c1 a c2 Hs IH St]; [constructor|].
  assert (G : forall l1 x y l2, Forall nt (l1 ++ x :: l2) -> (nt x -> nt y) -> Forall nt (l1 ++ y :: l2)).
  { intros l1 x y l2 F H. apply Forall_app in F. destruct F as [F1 F2]. inversion F2; subst. apply Forall_app. split; auto. }
  inversion St; subst; auto; try (eapply G; [exact IH|]; cbn; eauto).
  - apply Forall_app. split; auto. repeat constructor.
  - intros ([|v' l] & E0); [discriminate|]. injection E0 as _ ->. eauto.
Qed.

Definition wdcost (d : dpc (X:=V)) : nat := match d with DTop => 4 | DRecv => 3 | DHave x => 9 + length (f x) | DRel => 2 | DWait => 1 | DEnd => 0 end.
Definition wwcost (x : wst V V) : nat := match x with WNew x => 4 + length (f x) | WRun _ a => 3 + length a | WRet _ => 2 | WRel _ => 1 | WEnd _ => 0 end.
Definition wcst (d : dpc (X:=V)) (l : list (wst V V)) : nat := wdcost d + list_sum (map wwcost l).
Lemma wcost_acc : forall k d p g l, wcst d l <= k -> Acc tstep (CWalk (E := E) f w d p g l).
Proof.
  induction k as [k IH] using lt_wf_ind. intros d p g l L. constructor. intros c' (a & Fa & St).
  inversion St; subst; try discriminate; (eapply (IH (wcst _ _)); [|reflexivity]); unfold wcst in *; cbn [wdcost] in *; rewrite ?map_app, ?list_sum_app in *; cbn [map list_sum fold_right wwcost length] in *;
    rewrite ?map_length in *; try (unfold list_sum in *; cbn in *; lia).
Qed.

Lemma walk_good : forall n m, (forall xs, length xs <= n -> length (concat (map f xs)) <= m) ->
  good true true n (CWalk f w DTop 0 0 []) m (fun xs ys cs => walked f w xs ys /\ cs = []).
Proof.
  intros n m Hm. pose proof lim_ok as LP.
  assert (Eo : forall xs, map (fun x => outl (map ASend (f x))) xs = map f xs) by (intros; apply map_ext; intros; apply outl_sends).
  constructor.
  - intros t c Hs Hw L. destruct (walk_run _ _ Hs Hw) as (d & p & g & l & -> & _ & H). destruct (H [] (fun _ => eq_refl)) as (tr & R & D).
    rewrite app_nil_r in R. pose proof (i_takes _ _ _ _ _ _ (inv_steps _ _ _ _ _ _ R)) as T. apply takes_concat_len in T. cbn in T.
    rewrite app_nil_r, Eo, D in T. specialize (Hm _ L). lia.
  - intros t c a c' Hs Hw L Sh St. destruct (walk_run _ _ Hs Hw) as (d & p & g & l & -> & _ & H). destruct (H [] (fun _ => eq_refl)) as (tr & R & D).
    pose proof (no_fault _ _ _ _ _ _ R) as NF. rewrite Sh in NF. destruct a; auto; inversion St; subst; apply NF; left; cbn; split; auto. left. eauto 8.
  - intros t c Hs Hw L. destruct (walk_run _ _ Hs Hw) as (d & p & g & l & -> & _ & H). destruct (H [] (fun _ => eq_refl)) as (tr & R & D).
    pose proof (walk_nt _ _ Hs) as Nt. cbn in Nt.
    destruct (progress _ _ _ LP _ _ _ R) as [(lb & s' & Nl & St)|(D1 & D2 & _)]; [|left; cbn in *; auto].
    inversion St; subst; try congruence; try (right; left; eexists _, _; split; [|constructor; eauto]; reflexivity).
    + right. left. exists KInt. eexists. split; auto. apply WAcq. congruence.
    + right. right. intros [x|]; eexists; [apply WRecv|apply WRecvEnd].
    + apply Forall_app in Nt. destruct Nt as [_ Nt]. apply Forall_inv in Nt. destruct Nt as (l' & E0). destruct l'; discriminate.
  - intros t c Hs Hw L F. destruct (walk_run _ _ Hs Hw) as (d & p & g & l & -> & Hk & H). destruct F as [-> Fe].
    destruct (H [] (fun _ => eq_refl)) as (tr & R & D). rewrite app_nil_r in R. pose proof (inv_steps _ _ _ _ _ _ R) as I.
    assert (Sh : shut t = true) by (apply (i_cl _ _ _ _ _ _ I); reflexivity).
    split; auto. split.
    + intros _. destruct (seen t) eqn:Es; auto. exfalso. destruct (H [x0]) as (tr2 & R2 & _); [discriminate|].
      destruct (at_end _ _ _ _ _ _ (inv_steps _ _ _ _ _ _ R2) eq_refl) as [_ E2]. discriminate.
    + split; auto. rewrite Sh in R.
      destruct (end_all _ _ _ _ _ _ _ R (FOutEnd _ _ _ _ _ _ _ _)) as (Hi & _ & _). rewrite Eo, D in Hi. split; auto.
      intros ->. destruct (inv1_steps _ _ _ _ _ _ eq_refl R) as [_ _ Or]. cbn in Or. rewrite !app_nil_r, Eo, D in Or. rewrite <- Or.
      assert (E0 : concat (map (rem prg) l) = []). { clear - Fe. induction Fe as [|x l (y & ->) Fe IH]; cbn; auto. }
      rewrite E0. now rewrite app_nil_r.
  - intros t c Hs Hw L. destruct (walk_run _ _ Hs Hw) as (d & p & g & l & -> & _ & H). eapply wcost_acc. reflexivity.
  - intros t c Hs Hw L. destruct (walk_run _ _ Hs Hw) as (d & p & g & l & -> & _ & H). destruct (H [] (fun _ => eq_refl)) as (tr & R & D).
    intros [Hg Hl]. apply (no_fault _ _ _ _ _ _ R). right. cbn. auto.
  - discriminate.
Qed.
End WalkC.

(** ** Whole pipelines *)
Fixpoint lastch (ch : chan) (s : list stg) : chan := match s with [] => ch | (_, o) :: r => lastch o r end.
Lemma last_step : forall ch s l ch' s', pstep ch s l ch' s' -> ccl (lastch ch s) = true -> cbuf (lastch ch s) = [] ->
  lout l = [] /\ ccl (lastch ch' s') = true /\ cbuf (lastch ch' s') = [].
Proof.
  induction 1; cbn [lastch]; intros Hc Hb; auto; cbn in *; try discriminate.
  - destruct r as [|[? ?] r]; cbn in *; auto; discriminate.
  - destruct r as [|[? ?] r]; cbn in *; auto; discriminate.
  - rewrite lout_shift. auto.
Qed.
Lemma last_end : forall ch s l ch' s', pstep ch s l ch' s' -> l = POutEnd -> ccl (lastch ch s) = true /\ cbuf (lastch ch s) = [].
Proof. induction 1; cbn [lastch]; intros El; try discriminate; auto. apply IHpstep. destruct l; try discriminate; auto. Qed.
Lemma end_last : forall s ch, ccl (lastch ch s) = true -> cbuf (lastch ch s) = [] -> pstep ch s POutEnd ch s.
Proof.
  induction s as [|[c o] r IH]; intros ch Hc Hb; cbn in *.
  - destruct ch as [k b cl]; cbn in *; subst. apply HOutEnd.
  - change POutEnd with (shift (@POutEnd V E)). apply HLater. auto.
Qed.
Lemma last_steps : forall st tr st', steps pmove st tr st' -> ccl (lastch (fst st) (snd st)) = true -> cbuf (lastch (fst st) (snd st)) = [] ->
  flat_map lout tr = [].
Proof.
  intros st tr st' Hs Hc Hb.
  assert (G : flat_map lout tr = [] /\ ccl (lastch (fst st') (snd st')) = true /\ cbuf (lastch (fst st') (snd st')) = []).
  { induction Hs as [|tr s1 l s2 Hs IH St]; auto. destruct IH as (E0 & H1 & H2). destruct (last_step _ _ _ _ _ St H1 H2) as (E1 & H3 & H4).
    rewrite flat_map_app, E0. cbn. rewrite E1. auto. }
  apply G.
Qed.
Lemma over_last : forall s ch, over (ch, s) -> cbuf (lastch ch s) = [].
Proof.
  induction s as [|[c o] r IH]; intros ch [O1 O2]; cbn in *; auto. inversion O2 as [|? ? [F1 F2] O3]; subst. apply IH. split; auto.
Qed.
Lemma over_closed : forall n ch total s Rs cs out, cinv n ch total s Rs cs out -> tm = false -> over (ch, s) -> ccl ch = true -> ccl (lastch ch s) = true.
Proof.
  induction 1 as [n ch total cs out Et|rd cl n c0 m R t c ch o total r Rs cs out Hg Hs Hw Hl Et Hseen Hrd Hsh Hk Hcl Hi IH]; intros Ht [O1 O2] Hc; cbn in *; auto.
  inversion O2 as [|? ? [F1 F2] O3]; subst. cbn in *. apply IH; auto; [split; auto|]. rewrite <- Hsh.
  destruct Hcl as [Hcl|[_ Ht2]]; [|congruence]. eapply g_fin; eauto. eapply recvs_len; eauto.
Qed.

Lemma pdel_lout : forall tr : list plabel, pdelivered tr = flat_map lout tr.
Proof. reflexivity. Qed.
Lemma pcalls_lcall : forall i (tr : list plabel), pcalls i tr = flat_map (lcall i) tr.
Proof. reflexivity. Qed.

Lemma reach_inv : forall n ch total s Rs, cinv n ch total s Rs (fun _ => []) [] -> forall tr st, steps pmove (ch, s) tr st ->
  ccl (fst st) = ccl ch /\ cinv n (fst st) total (snd st) Rs (fun i => flat_map (lcall i) tr) (flat_map lout tr).
Proof.
  intros n ch total s Rs I tr st Hs. induction Hs as [|tr s1 l s2 Hs [Ec IH] St]; auto.
  destruct (cinv_step _ _ _ _ _ St _ _ _ _ _ IH) as [Ec2 Hi]. split; [congruence|]. rewrite flat_map_app. cbn. rewrite app_nil_r. apply Hi.
  intros i. rewrite flat_map_app. cbn. now rewrite app_nil_r.
Qed.

Lemma seq_op_good : forall n m p, (forall xs, length xs <= S n -> exists ys, works p xs ys) -> (forall xs ys, length xs <= n -> works p xs ys -> length ys <= m) ->
  good true true n (CSeq p) m (fun xs ys cs => exists es, ev true false p xs es /\ ys = outs es /\ cs = calls es).
Proof.
  intros n m p H1 H2. apply (seq_good true true n (S n)); auto; try discriminate.
  - intros xs L. destruct (H1 xs L) as (ys & W). destruct (works_ev _ _ _ W) as (es & He & _). eauto.
  - intros xs es L He. eapply H2; eauto. eapply ev_works; eauto.
Qed.
Lemma source_good : forall xs n, length xs <= n -> good false true 0 (CSeq (source xs)) n (fun us ys cs => ys = xs).
Proof.
  intros xs n L.
  assert (G : good false true 0 (CSeq (source xs)) n (fun us ys cs => exists es, ev true false (source xs) us es /\ ys = outs es /\ cs = calls es)).
  { apply (seq_good false true 0 0); auto; try discriminate.
    - intros us Lu. destruct us; [|cbn in Lu; lia]. eexists. apply ev_source.
    - intros us es Lu He. destruct us; [|cbn in Lu; lia]. rewrite (ev_det _ _ _ _ _ He _ (ev_source xs)). rewrite outs_app2, outs_sends. cbn. rewrite app_nil_r. exact L. }
  destruct G as [G1 G2 G3 G4 G5 G6 G7]. constructor; auto. intros t c Hs Hw Hl F. destruct (G4 _ _ Hs Hw Hl F) as (A1 & A2 & es & A3 & A4 & A5).
  split; auto. split; auto. destruct (recvs t); [|cbn in Hl; lia]. rewrite A4, (ev_det _ _ _ _ _ A3 _ (ev_source xs)), outs_app2, outs_sends. cbn. apply app_nil_r.
Qed.

(** [tail_ok m r Rt]: what comes behind ops *)
Lemma ops_cinv : forall ops n m, fit n ops m -> forall r Rt, (forall n' k cl, n' <= m -> cinv n' (Ch k [] cl) [] r Rt (fun _ => []) []) ->
  exists Rs, length Rs = length ops /\ (forall k cl, cinv n (Ch k [] cl) [] (map opstart ops ++ r) (Rs ++ Rt) (fun _ => []) []) /\
    forall cs xs ys, rel Rs cs xs ys -> may ops xs ys.
Proof.
  induction 1 as [n m L|n m p k ops z H1 H2 Hf IH|n m f w ops z Lw H2 Hf IH]; intros r Rt Hr.
  - exists []. split; auto. split; [intros; apply Hr; auto|]. cbn. intros cs xs ys ->. constructor.
  - destruct (IH r Rt Hr) as (Rs & El & I & Hm).
    exists ((fun xs ys cs => exists es, ev true false p xs es /\ ys = outs es /\ cs = calls es) :: Rs). split; [cbn; auto|]. split.
    + intros k0 cl. cbn [map opstart app]. eapply ci_cons with (t := []); cbn; eauto; try lia; try discriminate.
      * apply seq_op_good; eauto.
      * apply steps_nil.
    + intros cs xs ys (zs & (es & He & -> & _) & Hrel). econstructor; [eapply ev_works; eauto|eauto].
  - destruct (IH r Rt Hr) as (Rs & El & I & Hm).
    exists ((fun xs ys cs => walked f w xs ys /\ cs = []) :: Rs). split; [cbn; auto|]. split.
    + intros k0 cl. cbn [map opstart app]. eapply ci_cons with (t := []); cbn; eauto; try lia; try discriminate.
      * apply walk_good; eauto.
      * apply steps_nil.
    + intros cs xs ys (zs & (Hw & _) & Hrel). econstructor; eauto.
Qed.

Lemma rel_app : forall Rs Rt cs xs ys, rel (Rs ++ Rt) cs xs ys <-> exists zs, rel Rs cs xs zs /\ rel Rt (fun i => cs (length Rs + i)) zs ys.
Proof.
  induction Rs as [|R Rs IH]; intros Rt cs xs ys; cbn.
  - split; [intros H; exists xs; auto|]. intros (zs & -> & H). exact H.
  - split.
    + intros (zs & H1 & H2). apply IH in H2. destruct H2 as (us & H2 & H3). exists us. split; eauto.
    + intros (us & (zs & H1 & H2) & H3). exists zs. split; auto. apply IH. eauto.
Qed.
Lemma fit_may_len : forall n (ops : list op) m, fit n ops m -> forall xs, length xs <= n -> forall ys, may ops xs ys -> length ys <= m.
Proof.
  induction 1 as [n m L|n m p k ops z H1 H2 Hf IH|n m f w ops z Lw H2 Hf IH]; intros xs Lx ys Hm; inversion Hm; subst.
  - lia.
  - eapply IH; [|eauto]. eauto.
  - eapply IH; [|eauto]. match goal with H : walked _ _ _ _ |- _ => destruct H as [Hi _] end. apply interleaving_perm in Hi. apply Permutation_length in Hi. specialize (H2 _ Lx). lia.
Qed.
End Proofs.

Section Main.
Context {V E : Type}.
Variable x0 : V.
Notation proc := (proc V E). Notation op := (op V E). Notation plabel := (plabel V E).

Lemma start_cinv : forall (ops : list op) n m xs k tm r Rt, fit n ops m -> length xs <= n ->
  (forall n' k cl, n' <= m -> cinv tm n' (Ch k [] cl) [] r Rt (fun _ => []) []) ->
  exists Rs, length Rs = S (length ops) /\ cinv tm 0 (Ch 0 [] true) [] (map opstart (OSeq (source xs) k :: ops) ++ r) (Rs ++ Rt) (fun _ => []) [] /\
    forall cs ys, rel Rs cs [] ys -> may ops xs ys.
Proof.
  intros ops n m xs k tm r Rt Hf L Hr.
  destruct (ops_cinv x0 tm _ _ _ Hf r Rt Hr) as (Rs & El & I & Hm).
  exists ((fun us ys cs => ys = xs) :: Rs). split; [cbn; auto|]. split.
  - cbn [map opstart app]. eapply ci_cons with (t := []); cbn; eauto; try lia; try discriminate.
    + apply (source_good x0). exact L.
    + apply steps_nil.
  - intros cs ys (zs & -> & H). eauto.
Qed.

Theorem pipe_yields : forall (ops : list op) n m xs k, fit n ops m -> length xs <= n -> yields (OSeq (source xs) k :: ops) (may ops xs).
Proof.
  intros ops n m xs k Hf L.
  destruct (start_cinv ops n m xs k false [] [] Hf L) as (Rs & El & I & Hm).
  { intros. constructor. reflexivity. }
  rewrite !app_nil_r in I.
  assert (Rch : forall tr s, steps pmove (pstart (OSeq (source xs) k :: ops)) tr s -> ccl (fst s) = true /\
    cinv false 0 (fst s) [] (snd s) Rs (fun i => flat_map (lcall i) tr) (flat_map lout tr)).
  { intros tr s Hs. apply (reach_inv _ _ _ _ _ _ I _ _ Hs). }
  assert (Cpl : forall tr s, steps pmove (pstart (OSeq (source xs) k :: ops)) tr s -> exists tr', may ops xs (pdelivered (tr ++ tr')) /\
    exists s', steps pmove s tr' s').
  { intros tr [ch s] Hs. destruct (Rch _ _ Hs) as [Ec Ii]. cbn in *. destruct (complete _ _ _ _ _ _ _ _ Ii Ec) as (tr' & ch' & s' & cs' & Hs' & Ii' & _ & Ov).
    exists tr'. split; [|eauto]. apply over_rel in Ii'; auto. rewrite pdel_lout, flat_map_app. eauto. }
  constructor.
  - intros tr s Hs. destruct (Rch _ _ Hs) as [Ec Ii]. eapply safe; eauto.
  - intros tr [ch s] Hs. destruct (Rch _ _ Hs) as [Ec Ii]. cbn in *. destruct (prog _ _ _ _ _ _ _ _ Ii) as [(l & ch' & s' & Nl & St)|[[Ov _]|(_ & F & _)]]; [| |congruence].
    + left. exists l, (ch', s'). auto.
    + right. exact Ov.
  - intros tr [ch s] Hs. destruct (Rch _ _ Hs) as [Ec Ii]. apply down_halts. eapply term; eauto.
  - intros tr s Hs. destruct (Cpl _ _ Hs) as (tr' & H & _). exists (pdelivered (tr ++ tr')). split; auto. exists (pdelivered tr'). unfold pdelivered. apply flat_map_app.
  - intros tr s s' Hs St. destruct (Cpl _ _ Hs) as (tr' & H & s2 & Hs2). destruct (last_end _ _ _ _ _ St eq_refl) as [H1 H2].
    pose proof (last_steps _ _ _ Hs2 H1 H2) as E0. rewrite pdel_lout, flat_map_app, E0, app_nil_r in H. exact H.
  - intros tr [ch s] Hs Ov. destruct (Rch _ _ Hs) as [Ec Ii]. cbn in *. split.
    + apply over_rel in Ii; auto. eapply Hm; eauto.
    + apply end_last; [eapply over_closed; eauto|]. apply over_last. exact Ov.
Qed.

Theorem pipe_finishes : forall (ops : list op) n m xs k t k' plan, fit n ops m -> length xs <= n ->
  (forall ys, length ys <= S m -> performs t ys (plan ys) /\ outs (plan ys) = [] /\ ~ In AcX (plan ys)) ->
  finishes_with (OSeq (source xs) k :: ops ++ [OSeq t k']) (fun es => exists ys, may ops xs ys /\ es = calls (plan ys)).
Proof.
  intros ops n m xs k t k' plan Hf L Ht.
  set (R := fun (us ys : list V) (cs : list E) => exists es, ev false false t us es /\ ys = outs es /\ cs = calls es).
  assert (Pl : forall us es, length us <= S m -> ev false false t us es -> es = plan us).
  { intros us es Lu He. destruct (Ht us Lu) as (Hp & _). apply performs_ev in Hp. eapply ev_det; eauto. }
  destruct (start_cinv ops n m xs k true [(CSeq t, Ch k' [] false)] [R] Hf L) as (Rs & El & I & Hm).
  { intros n' k0 cl Ln. eapply ci_cons with (t := []) (rd := true) (cl := false) (m := 0); cbn; eauto; try lia; try discriminate.
    - apply (seq_good x0 true false n' (S m)); auto; try lia.
      + intros us Lu. destruct (Ht us Lu) as (Hp & _). exists (plan us). now apply performs_ev.
      + intros us es Lu He. rewrite (Pl us es) by (auto; lia). destruct (Ht us ltac:(lia)) as (_ & -> & _). auto.
      + intros _ us es Lu He. rewrite (Pl us es) by (auto; lia). destruct (Ht us ltac:(lia)) as (_ & H1 & H2). auto.
    - apply steps_nil.
    - constructor. reflexivity. }
  replace (map opstart (OSeq (source xs) k :: ops) ++ [(CSeq t, Ch k' [] false)]) with (map opstart (OSeq (source xs) k :: ops ++ [OSeq t k'])) in I by (cbn; now rewrite map_app).
  assert (Rch : forall tr s, steps pmove (pstart (OSeq (source xs) k :: ops ++ [OSeq t k'])) tr s -> ccl (fst s) = true /\
    cinv true 0 (fst s) [] (snd s) (Rs ++ [R]) (fun i => flat_map (lcall i) tr) (flat_map lout tr)).
  { intros tr s Hs. apply (reach_inv _ _ _ _ _ _ I _ _ Hs). }
  assert (Fi : forall ch s cs out, cinv true 0 ch [] s (Rs ++ [R]) cs out -> over (ch, s) -> exists ys, may ops xs ys /\ cs (S (length ops)) = calls (plan ys)).
  { intros ch s cs out Ii Ov. apply over_rel in Ii; auto. apply rel_app in Ii. destruct Ii as (ys & H1 & us & (es & He & _ & Hc) & _).
    exists ys. split; [eauto|]. rewrite Nat.add_0_r, El in Hc. rewrite Hc. f_equal. apply Pl; auto. enough (length ys <= m) by lia. eapply fit_may_len; eauto. }
  constructor.
  - intros tr s Hs. destruct (Rch _ _ Hs) as [Ec Ii]. eapply safe; eauto.
  - intros tr [ch s] Hs. destruct (Rch _ _ Hs) as [Ec Ii]. cbn in *. destruct (prog _ _ _ _ _ _ _ _ Ii) as [(l & ch' & s' & Nl & St)|[[Ov _]|(_ & F & _)]]; [| |congruence].
    + left. exists l, (ch', s'). auto.
    + right. exact Ov.
  - intros tr [ch s] Hs. destruct (Rch _ _ Hs) as [Ec Ii]. apply down_halts. eapply term; eauto.
  - intros tr [ch s] Hs. destruct (Rch _ _ Hs) as [Ec Ii]. cbn in Ec, Ii. destruct (complete _ _ _ _ _ _ _ _ Ii Ec) as (tr' & ch' & s' & cs' & Hs' & Ii' & Hcs & Ov).
    destruct (Fi _ _ _ _ Ii' Ov) as (ys & H1 & H2). exists (calls (plan ys)). split; [eauto|]. rewrite <- H2, Hcs.
    replace (pred (length (OSeq (source xs) k :: ops ++ [OSeq t k']))) with (S (length ops)) by (cbn; rewrite app_length; cbn; lia).
    eexists. reflexivity.
  - intros tr [ch s] Hs Ov. destruct (Rch _ _ Hs) as [Ec Ii]. destruct (Fi _ _ _ _ Ii Ov) as (ys & H1 & H2). exists ys. split; auto.
    replace (pred (length (OSeq (source xs) k :: ops ++ [OSeq t k']))) with (S (length ops)) by (cbn; rewrite app_length; cbn; lia). exact H2.
Qed.
End Main.
