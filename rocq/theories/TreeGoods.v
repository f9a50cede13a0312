(** * Stream expressions: every operator alone, and whole expressions *)
From Coq Require Import List Bool Arith Lia Permutation Wf_nat.
From Verif Require Import Trans NetModel NetSpec NetProofs FanModel FanSpec FanProofs PipeModel PipeSpec PipeProofs TreeModel TreeSpec TreeProofs.
Import ListNotations.
Open Scope nat_scope.

Section Goods.
Context {V E : Type}.
Notation proc := (proc V E). Notation chan := (chan V). Notation node := (node V E). Notation nact := (nact V E).
Notation comp := (comp V E). Notation cact := (cact V E).
Notation tree := (tree V E). Notation qlabel := (qlabel V E). Notation sexp := (sexp V E).

(** ** Operators that read one stream *)
Definition toc (a : nact) : cact := match a with AInt => KInt | ACall e => KCall e | ARecv _ o => KRecv o | ASnd v => KSend v | ACls => KClose end.
Definition on0 (a : nact) : Prop := match a with ARecv i _ => i = 0 | _ => True end.
Lemma toc_of : forall a, toc (nact_of a) = a. Proof. destruct a; reflexivity. Qed.
Lemma of_toc : forall a, on0 a -> nact_of (toc a) = a. Proof. destruct a; cbn; intros H; subst; reflexivity. Qed.
Lemma one_inv : forall c a s, gstep (NOne c) a s -> exists c', s = NOne c' /\ cstep c (toc a) c' /\ on0 a.
Proof. intros c a s H. inversion H; subst. eexists. split; [reflexivity|]. rewrite toc_of. split; auto. destruct a0; cbn; auto. Qed.

Record onerun (c0 : comp) (t : list nact) (u : list cact) (c : comp) : Prop := {
  or_run : steps cstep c0 u c; or_recvs : recvs u = arecvs 0 t; or_sents : sents u = asents t; or_calls : kcalls u = acalls t;
  or_seen : seen u = aseen 0 t; or_shut : shut u = ashut t; or_wf : awf t -> wfin u }.
Lemma one_steps : forall c0 t s, steps gstep (NOne c0) t s -> exists c, s = NOne c /\ onerun c0 t (map toc t) c.
Proof.
  intros c0 t s H. induction H as [|t s1 a s2 H (c & -> & [R A1 A2 A3 A4 A5 A6]) St].
  - exists c0. split; auto. constructor; auto; [apply steps_nil|]. intros _. exact I.
  - destruct (one_inv _ _ _ St) as (c' & -> & Sc & O). exists c'. split; auto. rewrite map_app. cbn [map].
    constructor.
    + eapply steps_snoc; eauto.
    + rewrite recvs_app, arecvs_app, A1. f_equal. destruct a as [| |i [v|]| |]; cbn in *; subst; reflexivity.
    + rewrite sents_app, asents_app, A2. f_equal. destruct a as [| |i [v|]| |]; reflexivity.
    + rewrite kcalls_app, acalls_app, A3. f_equal. destruct a as [| |i [v|]| |]; reflexivity.
    + rewrite seen_app, aseen_app, A4. f_equal. destruct a as [| |i [v|]| |]; cbn in *; subst; reflexivity.
    + rewrite shut_app, ashut_app, A5. f_equal. destruct a as [| |i [v|]| |]; reflexivity.
    + intros W. apply awf_inv in W. destruct W as [W Ha]. apply wfin_snoc; auto. rewrite A4. intros Se. specialize (Ha 0 Se).
      destruct a as [| |i [v|]| |]; cbn in *; subst; auto.
Qed.

Definition kstep (P : list V -> Prop) (x' x : list cact * comp) : Prop := exists a, free a = true /\ cstep (snd x) a (snd x') /\
  fst x' = fst x ++ [a] /\ wfin (fst x') /\ exists w, P (recvs (fst x') ++ w) /\ (seen (fst x') = true -> w = []).
Lemma acc_one : forall P c0 x, Acc (kstep P) x -> forall t, steps gstep (NOne c0) t (NOne (snd x)) -> fst x = map toc t ->
  Acc (astep 1 (fun _ => P)) (t, NOne (snd x)).
Proof.
  intros P c0 x H. induction H as [[u c] _ IH]. cbn [fst snd] in *. intros t R ->. constructor. intros [t' s] (a & Fa & St & Et & W & ws & C). cbn [fst snd] in *. subst t'.
  destruct (one_inv _ _ _ St) as (c' & -> & Sc & O).
  assert (R' : steps gstep (NOne c0) (t ++ [a]) (NOne c')) by (eapply steps_snoc; eauto).
  apply (IH (map toc (t ++ [a]), c')); auto. cbn [fst snd]. exists (toc a). cbn [fst snd]. split; [destruct a as [| |i [v|]| |]; auto|]. split; auto.
  split; [now rewrite map_app|]. destruct (one_steps _ _ _ R') as (c2 & E2 & [Ru A1 A2 A3 A4 A5 A6]). split; auto. exists (ws 0). rewrite A1, A4. apply C. lia.
Qed.
Lemma acc_tk : forall P c, Acc tstep c -> forall u, Acc (kstep P) (u, c).
Proof. induction 1 as [c _ IH]. intros u. constructor. intros [u' c'] (a & Fa & St & _). apply IH. exists a. auto. Qed.

(** What is to be shown of an operator that reads one stream, in its own terms *)
Lemma one_good : forall (cl : bool) (P : list V -> Prop) (c0 : comp) (Q : list V -> list E -> Prop),
  (forall u c a c' w, steps cstep c0 u c -> wfin u -> P (recvs u ++ w) -> (seen u = true -> w = []) -> shut u = true -> cstep c a c' ->
     match a with KSend _ | KClose => False | _ => True end) ->
  (forall u c w, steps cstep c0 u c -> wfin u -> P (recvs u ++ w) -> (seen u = true -> w = []) ->
     fin c \/ (exists a c', own a = true /\ cstep c a c') \/ (forall o, exists c', cstep c (KRecv o) c')) ->
  (forall u c w, steps cstep c0 u c -> wfin u -> P (recvs u ++ w) -> (seen u = true -> w = []) -> fin c ->
     (cl = true -> shut u = true) /\ w = [] /\ Q (sents u) (kcalls u)) ->
  (forall u c w, steps cstep c0 u c -> wfin u -> P (recvs u ++ w) -> (seen u = true -> w = []) -> Acc (kstep P) (u, c)) ->
  (forall u c w, steps cstep c0 u c -> wfin u -> P (recvs u ++ w) -> (seen u = true -> w = []) -> ~ bad c) ->
  tgood cl 1 (fun _ => P) (NOne c0) Q.
Proof.
  intros cl P c0 Q H1 H2 H3 H4 H5.
  assert (Cp : forall t u c ws, onerun c0 t u c -> compl 1 (fun _ => P) t ws -> P (recvs u ++ ws 0) /\ (seen u = true -> ws 0 = [])).
  { intros t u c ws [R A1 A2 A3 A4 A5 A6] C. rewrite A1, A4. apply C. lia. }
  constructor.
  - intros t s a s' ws R W C Sh St. destruct (one_steps _ _ _ R) as (c & -> & O). destruct (Cp _ _ _ _ O C) as [C1 C2]. destruct O as [Ru A1 A2 A3 A4 A5 A6].
    destruct (one_inv _ _ _ St) as (c' & -> & Sc & _). assert (X := H1 _ _ _ _ _ Ru (A6 W) C1 C2 ltac:(congruence) Sc). destruct a; auto.
  - intros t s ws R W C. destruct (one_steps _ _ _ R) as (c & -> & O). destruct (Cp _ _ _ _ O C) as [C1 C2]. destruct O as [Ru A1 A2 A3 A4 A5 A6].
    destruct (H2 _ _ _ Ru (A6 W) C1 C2) as [F|[(a & c' & Ow & St)|Re]].
    + left. exact F.
    + right. left. exists (nact_of a), (NOne c'). split; [destruct a; auto|]. now constructor.
    + right. right. exists 0. split; auto. intros o. destruct (Re o) as (c' & St). exists (NOne c'). apply (GOne _ _ _ St).
  - intros t s ws R W C F. destruct (one_steps _ _ _ R) as (c & -> & O). destruct (Cp _ _ _ _ O C) as [C1 C2]. destruct O as [Ru A1 A2 A3 A4 A5 A6].
    destruct (H3 _ _ _ Ru (A6 W) C1 C2 F) as (B1 & B2 & B3). rewrite A5 in B1. rewrite A2, A3 in B3. split; auto. split; auto.
    intros i Li. now replace i with 0 by lia.
  - intros t s ws R W C. destruct (one_steps _ _ _ R) as (c & -> & O). destruct (Cp _ _ _ _ O C) as [C1 C2]. destruct O as [Ru A1 A2 A3 A4 A5 A6].
    apply (acc_one P c0 (map toc t, c)); auto. eapply H4; eauto.
  - intros t s ws R W C. destruct (one_steps _ _ _ R) as (c & -> & O). destruct (Cp _ _ _ _ O C) as [C1 C2]. destruct O as [Ru A1 A2 A3 A4 A5 A6].
    cbn. eauto.
Qed.

(** one goroutine *)
Lemma seq_runP : forall nd (p : proc) (P : list V -> Prop), (forall xs, P xs -> exists es, ev nd false p xs es) ->
  forall t c, steps cstep (CSeq p) t c -> wfin t -> exists p', c = CSeq p' /\
    forall ws, P (recvs t ++ ws) -> (seen t = true -> ws = []) ->
    exists es', ev nd (shut t) p' ws es' /\ ev nd false p (recvs t ++ ws) (acts_of t ++ es').
Proof.
  intros nd p P Hp t c Hs. induction Hs as [|t c1 a c2 Hs IH St]; intros Hw.
  - exists p. split; auto. intros ws L _. cbn in *. destruct (Hp ws L) as (es & H). eauto.
  - apply wfin_snoc_inv in Hw. destruct Hw as [Hw Ha]. destruct (IH Hw) as (p1 & -> & H1). clear IH.
    inversion St; subst; eexists; (split; [reflexivity|]); intros ws L Hseen; rewrite recvs_app in *; rewrite seen_app in Hseen; rewrite shut_app, acts_of_app; cbn in L, Hseen; cbn [recvs flat_map app acts_of toact shut existsb] in *; rewrite ?app_nil_r, ?orb_false_r, <- ?app_assoc in *.
    + destruct o as [x|].
      * cbn [app existsb orb] in *. rewrite ?orb_false_r in *. rewrite <- ?app_assoc in *. cbn [app] in *.
        destruct (H1 (x :: ws)) as (es & H2 & H3); auto.
        { intros Hx. specialize (Ha Hx). discriminate. }
        inversion H2; subst. eexists. (split; [eassumption|]). rewrite <- app_assoc; exact H3.
      * cbn [app existsb orb] in *. rewrite orb_true_r in Hseen. specialize (Hseen eq_refl). subst ws. rewrite ?app_nil_r in *.
        destruct (H1 []) as (es & H2 & H3); rewrite ?app_nil_r; auto. rewrite app_nil_r in H3.
        inversion H2; subst. eexists. (split; [eassumption|]). rewrite <- app_assoc; exact H3.
    + destruct (H1 ws) as (es & H2 & H3); auto. inversion H2; subst. eexists. (split; [eassumption|]). rewrite <- app_assoc; exact H3.
    + destruct (H1 ws) as (es & H2 & H3); auto. inversion H2; subst. eexists. (split; [eassumption|]). rewrite <- app_assoc; exact H3.
    + destruct (H1 ws) as (es & H2 & H3); auto. inversion H2; subst. eexists. (split; [eassumption|]). rewrite <- app_assoc; exact H3.
Qed.
Lemma seq_tgood : forall nd (p : proc) (P : list V -> Prop), (forall xs, P xs -> exists es, ev nd false p xs es) ->
  tgood nd 1 (fun _ => P) (NOne (CSeq p)) (fun ys cs => exists xs es, P xs /\ ev nd false p xs es /\ ys = outs es /\ cs = calls es).
Proof.
  intros nd p P Hp.
  assert (G : forall t c w, steps cstep (CSeq p) t c -> wfin t -> P (recvs t ++ w) -> (seen t = true -> w = []) -> exists p' es',
    c = CSeq p' /\ ev nd (shut t) p' w es' /\ ev nd false p (recvs t ++ w) (acts_of t ++ es')).
  { intros t c w Hs Hw Pw Se. destruct (seq_runP nd p P Hp _ _ Hs Hw) as (p' & -> & H). destruct (H w Pw Se) as (es' & H1 & H2). eauto 6. }
  apply one_good.
  - intros u c a c' w R W Pw Se Sh St. destruct (G _ _ _ R W Pw Se) as (p' & es' & -> & H1 & H2). rewrite Sh in H1. inversion H1; subst; inversion St; subst; auto.
  - intros u c w R W Pw Se. destruct (G _ _ _ R W Pw Se) as (p' & es' & -> & H1 & H2). inversion H1; subst.
    + right. left. eexists _, _. split; [|apply SSend]. reflexivity.
    + right. right. intros o. eexists. apply SRecv.
    + right. right. intros o. eexists. apply SRecv.
    + right. left. eexists _, _. split; [|apply SClose]. reflexivity.
    + right. left. eexists _, _. split; [|apply SCall]. reflexivity.
    + left. reflexivity.
  - intros u c w R W Pw Se F. destruct (G _ _ _ R W Pw Se) as (p' & es' & -> & H1 & H2). cbn in F. subst p'. inversion H1; subst. split; auto. split; auto.
    rewrite !app_nil_r in *. exists (recvs u), (acts_of u). now rewrite outs_acts, calls_acts.
  - intros u c w R W Pw Se. destruct (G _ _ _ R W Pw Se) as (p' & es' & -> & H1 & H2).
    (* until its next item p' does what ev says *)
    remember (shut u) as cl eqn:Ec. clear H2. revert u R W Pw Se Ec. induction H1 as [v p' w es H IH|cl k x w es H IH|cl k es H IH|p' w es H IH|cl e p' w es H IH|cl Hcl];
      intros u R W Pw Se Ec; constructor; intros [u' c'] (a & Fa & St & Eu & W' & w2 & P2 & S2); cbn [fst snd] in *; subst u'; inversion St; subst.
    + apply IH; auto; rewrite ?recvs_app, ?seen_app, ?shut_app; cbn; rewrite ?app_nil_r, ?orb_false_r; auto. eapply steps_snoc; eauto.
    + destruct o; [discriminate|]. assert (w2 = []) as -> by (apply S2; rewrite seen_app; cbn; apply orb_true_r).
      destruct (G (u ++ [KRecv None]) (CSeq (k None)) []) as (p2 & es2 & E2 & H2 & _); auto; [eapply steps_snoc; eauto|]. injection E2 as <-.
      apply acc_tk. eapply ev_acc; eauto.
    + destruct o; [discriminate|]. assert (w2 = []) as -> by (apply S2; rewrite seen_app; cbn; apply orb_true_r).
      destruct (G (u ++ [KRecv None]) (CSeq (k None)) []) as (p2 & es2 & E2 & H2 & _); auto; [eapply steps_snoc; eauto|]. injection E2 as <-.
      apply acc_tk. eapply ev_acc; eauto.
    + apply IH; auto; rewrite ?recvs_app, ?seen_app, ?shut_app; cbn; rewrite ?app_nil_r, ?orb_false_r, ?orb_true_r; auto. eapply steps_snoc; eauto.
    + apply IH; auto; rewrite ?recvs_app, ?seen_app, ?shut_app; cbn; rewrite ?app_nil_r, ?orb_false_r; auto. eapply steps_snoc; eauto.
  - intros u c w R W Pw Se. destruct (G _ _ _ R W Pw Se) as (p' & es' & -> & H1 & H2). cbn. intros ->. inversion H1.
Qed.

(** Walk *)
Lemma walk_tgood : forall (f : V -> list V) w (P : list V -> Prop), 1 <= w ->
  tgood true 1 (fun _ => P) (NOne (CWalk f w DTop 0 0 [])) (fun ys cs => exists xs, P xs /\ walked f w xs ys /\ cs = @nil E).
Proof.
  intros f w P Lw. pose proof (lim_ok w Lw) as LP.
  assert (Eo : forall xs, map (fun x => outl (map ASend (f x))) xs = map f xs) by (intros; apply map_ext; intros; apply outl_sends).
  apply one_good.
  - intros u c a c' ws R W Pw Se Sh St. destruct (walk_run f w Lw _ _ R W) as (d & p & g & l & -> & _ & H). destruct (H ws Se) as (tr & Rt & D).
    pose proof (no_fault _ _ _ _ _ _ Rt) as NF. rewrite Sh in NF. destruct a; auto; inversion St; subst; apply NF; left; cbn; split; auto. left. eauto 8.
  - intros u c ws R W Pw Se. destruct (walk_run f w Lw _ _ R W) as (d & p & g & l & -> & _ & H). destruct (H ws Se) as (tr & Rt & D).
    pose proof (walk_nt f w _ _ R) as Nt. cbn in Nt.
    destruct (progress _ _ _ LP _ _ _ Rt) as [(lb & s' & Nl & St)|(D1 & D2 & _)]; [|left; cbn in *; auto].
    inversion St; subst; try congruence; try (right; left; eexists _, _; split; [|constructor; eauto]; reflexivity).
    + right. left. exists KInt. eexists. split; auto. apply WAcq. congruence.
    + right. right. intros [x'|]; eexists; [apply WRecv|apply WRecvEnd].
    + right. right. intros [x'|]; eexists; [apply WRecv|apply WRecvEnd].
    + apply Forall_app in Nt. destruct Nt as [_ Nt]. apply Forall_inv in Nt. destruct Nt as (l' & E0). destruct l'; discriminate.
  - intros u c ws R W Pw Se F. destruct (walk_run f w Lw _ _ R W) as (d & p & g & l & -> & Hk & H). destruct F as [-> Fe].
    destruct (H ws Se) as (tr & Rt & D). pose proof (inv_steps _ _ _ _ _ _ Rt) as I.
    destruct (at_end _ _ _ _ _ _ I eq_refl) as [_ E2]. cbn in E2. subst ws. rewrite app_nil_r in *.
    assert (Sh : shut u = true) by (apply (i_cl _ _ _ _ _ _ I); reflexivity).
    split; auto. split; auto. exists (recvs u). split; auto. split; auto. rewrite Sh in Rt.
    destruct (end_all _ _ _ _ _ _ _ Rt (FOutEnd _ _ _ _ _ _ _ _)) as (Hi & _ & _). rewrite Eo, D in Hi. split; auto.
    intros ->. destruct (inv1_steps _ _ _ _ _ _ eq_refl Rt) as [_ _ Or]. cbn in Or. rewrite !app_nil_r, Eo, D in Or. rewrite <- Or.
    assert (E0 : concat (map (rem (fun x => map ASend (f x))) l) = []). { clear - Fe. induction Fe as [|x l (y & ->) Fe IH]; cbn; auto. }
    rewrite E0. now rewrite app_nil_r.
  - intros u c ws R W Pw Se. destruct (walk_run f w Lw _ _ R W) as (d & p & g & l & -> & _ & H). apply acc_tk. apply (wcost_acc f w Lw (wcst f d l)). reflexivity.
  - intros u c ws R W Pw Se. destruct (walk_run f w Lw _ _ R W) as (d & p & g & l & -> & _ & H). destruct (H ws Se) as (tr & Rt & D).
    intros [Hg Hl]. apply (no_fault _ _ _ _ _ _ Rt). right. cbn. auto.
Qed.

(** Concat *)
Notation kst := (kst V).
Definition busy (x : kst) : nat := match x with CEnd => 0 | _ => 1 end.
Definition pend (x : option kst) : list V := match x with Some (CHave v) => [v] | _ => [] end.
Definition past (x : option kst) : bool := match x with Some CRet | Some CEnd => true | _ => false end.
Definition tot (n : nat) (F : nat -> list V) : list (list V) := map F (seq 0 n).

Lemma tot_split : forall n i F, i < n -> tot n F = map F (seq 0 i) ++ F i :: map F (seq (S i) (n - S i)).
Proof. intros n i F L. unfold tot. replace n with (i + (1 + (n - S i))) at 1 by lia. rewrite seq_app, map_app. cbn. reflexivity. Qed.
Lemma tot_ext : forall n F G, (forall i, i < n -> F i = G i) -> tot n F = tot n G.
Proof. intros n F G H. apply map_ext_in. intros i Hi. apply in_seq in Hi. apply H. lia. Qed.
Lemma take_one : forall n L s F G i v, i < n -> takes L s (tot n F) -> F i = v :: G i -> (forall j, j < n -> j <> i -> G j = F j) -> takes L (s ++ [v]) (tot n G).
Proof.
  intros n L s F G i v Li T Fi Ne. rewrite (tot_split n i F Li), Fi in T. apply takes_one in T. rewrite (tot_split n i G Li).
  replace (map G (seq 0 i)) with (map F (seq 0 i)) by (apply map_ext_in; intros j Hj; apply in_seq in Hj; symmetry; apply Ne; lia).
  replace (map G (seq (S i) (n - S i))) with (map F (seq (S i) (n - S i))) by (apply map_ext_in; intros j Hj; apply in_seq in Hj; symmetry; apply Ne; lia).
  exact T.
Qed.

Record catinv (n : nat) (t : list nact) (d : kpc) (g : nat) (l : list kst) : Prop := {
  ca_len : length l = match d with KLoop i => i | _ => n end; ca_le : length l <= n;
  ca_wg : g = list_sum (map busy l);
  ca_seen : forall i, aseen i t = past (nth_error l i);
  ca_new : forall i, length l <= i -> arecvs i t = [];
  ca_takes : forall ws, takes (tot n (fun i => arecvs i t ++ ws i)) (asents t) (tot n (fun i => pend (nth_error l i) ++ ws i));
  ca_shut : ashut t = true <-> d = KOver; ca_zero : d = KOver -> g = 0; ca_calls : acalls t = [] }.

Lemma busy_mid : forall l1 x l2, list_sum (map busy (l1 ++ x :: l2)) = list_sum (map busy l1) + busy x + list_sum (map busy l2).
Proof. intros. rewrite map_app, list_sum_app. cbn. unfold list_sum. lia. Qed.
Lemma busy_zero : forall l, list_sum (map busy l) = 0 -> Forall (fun x => x = CEnd) l.
Proof. induction l as [|x l IH]; intros H; constructor; cbn in H; unfold list_sum in *; cbn in H; [destruct x; cbn in H; auto; lia|apply IH; lia]. Qed.

Lemma mid_len : forall n t d g l1 x l2, catinv n t d g (l1 ++ x :: l2) -> length l1 < n.
Proof. intros n t d g l1 x l2 [_ L _ _ _ _ _ _ _]. rewrite app_length in L. cbn in L. lia. Qed.

Lemma cat_inv : forall n t s, steps gstep (NCat n (KLoop 0) 0 []) t s -> awf t -> exists d g l, s = NCat n d g l /\ catinv n t d g l.
Proof.
  intros n t s R. induction R as [|t s1 a s2 R IH St]; intros W.
  - eexists _, _, _. split; [reflexivity|]. constructor; cbn; auto; try lia; try discriminate.
    + intros i. destruct i; reflexivity.
    + intros ws. replace (tot n (fun i => pend (nth_error [] i) ++ ws i)) with (tot n ws); [constructor|].
      apply tot_ext. intros i _. destruct i; reflexivity.
    + split; discriminate.
  - apply awf_inv in W. destruct W as [W Ha]. destruct (IH W) as (d & g & l & -> & I). clear IH.
    inversion St; subst; eexists _, _, _; (split; [reflexivity|]).
    + (* spawn *)
      destruct I as [A1 A2 A3 A4 A5 A6 A7 A8 A9]. cbn in A1. constructor; rewrite ?aseen_app, ?asents_app, ?ashut_app, ?acalls_app; cbn; rewrite ?app_nil_r, ?orb_false_r; auto; try discriminate.
      * rewrite app_length. cbn. lia.
      * rewrite app_length. cbn. lia.
      * rewrite map_app, list_sum_app. cbn. lia.
      * intros j. rewrite aseen_app. cbn. rewrite orb_false_r, A4. destruct (Nat.lt_trichotomy j (length l)) as [H|[->|H]].
        -- now rewrite nth_error_app1.
        -- rewrite nth_mid. now rewrite (proj2 (nth_error_None l (length l))) by lia.
        -- rewrite !(proj2 (nth_error_None _ _)); auto; rewrite ?app_length; cbn; lia.
      * intros j Lj. rewrite app_length in Lj. cbn in Lj. rewrite arecvs_app. cbn. rewrite app_nil_r. apply A5. lia.
      * intros ws. erewrite (tot_ext n (fun i0 => arecvs i0 (t ++ [AInt]) ++ ws i0)) by (intros; rewrite arecvs_app; cbn; rewrite app_nil_r; reflexivity).
        erewrite (tot_ext n (fun i0 => pend (nth_error (l ++ [CTop]) i0) ++ ws i0)); [apply A6|]. intros j Lj. cbn beta. f_equal.
        destruct (Nat.lt_trichotomy j (length l)) as [H|[->|H]].
        -- now rewrite nth_error_app1.
        -- rewrite nth_mid. now rewrite (proj2 (nth_error_None l (length l))) by lia.
        -- rewrite !(proj2 (nth_error_None _ _)); auto; rewrite ?app_length; cbn; lia.
      * rewrite A7. split; discriminate.
    + (* end of the loop *)
      destruct I as [A1 A2 A3 A4 A5 A6 A7 A8 A9]. cbn in A1. constructor; rewrite ?asents_app, ?ashut_app, ?acalls_app; cbn; rewrite ?app_nil_r, ?orb_false_r; auto; try discriminate.
      * intros j. rewrite aseen_app. cbn. now rewrite orb_false_r, A4.
      * intros j Lj. rewrite arecvs_app. cbn. rewrite app_nil_r. auto.
      * intros ws. erewrite (tot_ext n (fun i0 => arecvs i0 (t ++ [AInt]) ++ ws i0)) by (intros; rewrite arecvs_app; cbn; rewrite app_nil_r; reflexivity). apply A6.
      * rewrite A7. split; discriminate.
    + (* an item received *)
      pose proof (mid_len _ _ _ _ _ _ _ I) as Ln. destruct I as [A1 A2 A3 A4 A5 A6 A7 A8 A9].
      constructor; rewrite ?asents_app, ?ashut_app, ?acalls_app; cbn; rewrite ?app_nil_r, ?orb_false_r; auto; try discriminate.
      * rewrite <- A1, !app_length. reflexivity.
      * rewrite app_length in *. cbn in *. lia.
      * rewrite A3, !busy_mid. reflexivity.
      * intros j. rewrite aseen_app. cbn. rewrite orb_false_r, A4. destruct (Nat.eq_dec j (length l1)) as [->|Ne]; [now rewrite !nth_mid|now rewrite (nth_other _ l1 CTop (CHave v)) by auto].
      * intros j Lj. rewrite app_length in Lj. cbn in Lj. rewrite arecvs_app. cbn. destruct (Nat.eqb_spec j (length l1)); [lia|]. rewrite app_nil_r. apply A5. rewrite app_length. cbn. lia.
      * intros ws. specialize (A6 (upd ws (length l1) (v :: ws (length l1)))).
        rewrite (tot_ext n (fun i0 => arecvs i0 (t ++ [ARecv (length l1) (Some v)]) ++ ws i0) (fun i0 => arecvs i0 t ++ upd ws (length l1) (v :: ws (length l1)) i0)).
        2:{ intros j Lj. rewrite arecvs_app. cbn. destruct (upd_cases ws (length l1) j (v :: ws (length l1))) as [[-> ->]|[Ne ->]].
            - rewrite Nat.eqb_refl. now rewrite <- app_assoc.
            - destruct (Nat.eqb_spec j (length l1)); [contradiction|]. now rewrite app_nil_r. }
        rewrite (tot_ext n (fun i0 => pend (nth_error (l1 ++ CHave v :: l2) i0) ++ ws i0) (fun i0 => pend (nth_error (l1 ++ CTop :: l2) i0) ++ upd ws (length l1) (v :: ws (length l1)) i0)); [exact A6|].
        intros j Lj. destruct (upd_cases ws (length l1) j (v :: ws (length l1))) as [[-> ->]|[Ne ->]]; [now rewrite !nth_mid|]. now rewrite (nth_other _ l1 CTop (CHave v)) by auto.
    + (* the end received *)
      pose proof (mid_len _ _ _ _ _ _ _ I) as Ln. destruct I as [A1 A2 A3 A4 A5 A6 A7 A8 A9].
      constructor; rewrite ?asents_app, ?ashut_app, ?acalls_app; cbn; rewrite ?app_nil_r, ?orb_false_r; auto; try discriminate.
      * rewrite <- A1, !app_length. reflexivity.
      * rewrite app_length in *. cbn in *. lia.
      * rewrite A3, !busy_mid. reflexivity.
      * intros j. rewrite aseen_app. cbn. rewrite orb_false_r, A4. destruct (Nat.eqb_spec j (length l1)) as [->|Ne]; [now rewrite !nth_mid|now rewrite (nth_other _ l1 CTop CRet), orb_false_r by auto].
      * intros j Lj. rewrite app_length in Lj. cbn in Lj. rewrite arecvs_app. cbn. rewrite app_nil_r. apply A5. rewrite app_length. cbn. lia.
      * intros ws. specialize (A6 ws).
        erewrite (tot_ext n (fun i0 => arecvs i0 (t ++ [ARecv (length l1) None]) ++ ws i0)) by (intros; rewrite arecvs_app; cbn; rewrite app_nil_r; reflexivity).
        rewrite (tot_ext n (fun i0 => pend (nth_error (l1 ++ CRet :: l2) i0) ++ ws i0) (fun i0 => pend (nth_error (l1 ++ CTop :: l2) i0) ++ ws i0)); [exact A6|].
        intros j Lj. destruct (Nat.eq_dec j (length l1)) as [->|Ne]; [now rewrite !nth_mid|]. now rewrite (nth_other _ l1 CTop CRet) by auto.
    + (* an item sent *)
      pose proof (mid_len _ _ _ _ _ _ _ I) as Ln. destruct I as [A1 A2 A3 A4 A5 A6 A7 A8 A9].
      constructor; rewrite ?asents_app, ?ashut_app, ?acalls_app; cbn; rewrite ?app_nil_r, ?orb_false_r; auto; try discriminate.
      * rewrite <- A1, !app_length. reflexivity.
      * rewrite app_length in *. cbn in *. lia.
      * rewrite A3, !busy_mid. reflexivity.
      * intros j. rewrite aseen_app. cbn. rewrite orb_false_r, A4. destruct (Nat.eq_dec j (length l1)) as [->|Ne]; [now rewrite !nth_mid|now rewrite (nth_other _ l1 (CHave v) CTop) by auto].
      * intros j Lj. rewrite app_length in Lj. cbn in Lj. rewrite arecvs_app. cbn. rewrite app_nil_r. apply A5. rewrite app_length. cbn. lia.
      * intros ws. specialize (A6 ws).
        erewrite (tot_ext n (fun i0 => arecvs i0 (t ++ [ASnd v]) ++ ws i0)) by (intros; rewrite arecvs_app; cbn; rewrite app_nil_r; reflexivity).
        eapply (take_one n _ _ _ _ (length l1)); [exact Ln|exact A6| |].
        -- cbn beta. now rewrite !nth_mid.
        -- intros j Lj Ne. cbn beta. now rewrite (nth_other _ l1 (CHave v) CTop) by auto.
    + (* Done *)
      pose proof (mid_len _ _ _ _ _ _ _ I) as Ln. destruct I as [A1 A2 A3 A4 A5 A6 A7 A8 A9].
      constructor; rewrite ?asents_app, ?ashut_app, ?acalls_app; cbn; rewrite ?app_nil_r, ?orb_false_r; auto; try discriminate.
      * rewrite <- A1, !app_length. reflexivity.
      * rewrite app_length in *. cbn in *. lia.
      * rewrite busy_mid in *. cbn in *. lia.
      * intros j. rewrite aseen_app. cbn. rewrite orb_false_r, A4. destruct (Nat.eq_dec j (length l1)) as [->|Ne]; [now rewrite !nth_mid|now rewrite (nth_other _ l1 CRet CEnd) by auto].
      * intros j Lj. rewrite app_length in Lj. cbn in Lj. rewrite arecvs_app. cbn. rewrite app_nil_r. apply A5. rewrite app_length. cbn. lia.
      * intros ws. specialize (A6 ws).
        erewrite (tot_ext n (fun i0 => arecvs i0 (t ++ [AInt]) ++ ws i0)) by (intros; rewrite arecvs_app; cbn; rewrite app_nil_r; reflexivity).
        rewrite (tot_ext n (fun i0 => pend (nth_error (l1 ++ CEnd :: l2) i0) ++ ws i0) (fun i0 => pend (nth_error (l1 ++ CRet :: l2) i0) ++ ws i0)); [exact A6|].
        intros j Lj. destruct (Nat.eq_dec j (length l1)) as [->|Ne]; [now rewrite !nth_mid|]. now rewrite (nth_other _ l1 CRet CEnd) by auto.
      * intros Hd. specialize (A8 Hd). discriminate.
    + (* close *)
      destruct I as [A1 A2 A3 A4 A5 A6 A7 A8 A9]. cbn in A1. constructor; rewrite ?asents_app, ?ashut_app, ?acalls_app; cbn; rewrite ?app_nil_r, ?orb_false_r, ?orb_true_r; auto; try discriminate.
      * intros j. rewrite aseen_app. cbn. now rewrite orb_false_r, A4.
      * intros j Lj. rewrite arecvs_app. cbn. rewrite app_nil_r. auto.
      * intros ws. erewrite (tot_ext n (fun i0 => arecvs i0 (t ++ [ACls]) ++ ws i0)) by (intros; rewrite arecvs_app; cbn; rewrite app_nil_r; reflexivity). apply A6.
      * tauto.
Qed.

Definition kcost (x : kst) : nat := match x with CEnd => 0 | CRet => 1 | CTop => 2 | CHave _ => 3 end.
Definition dcost (n : nat) (d : kpc) : nat := match d with KLoop i => 2 + 3 * (n - i) | KWait => 1 | KOver => 0 end.
Lemma cat_acc : forall n P m d g l (t : list nact), dcost n d + list_sum (map kcost l) <= m -> Acc (astep n P) (t, NCat n d g l).
Proof.
  intros n P. induction m as [m IH] using lt_wf_ind. intros d g l t L. constructor. intros [t' s] (a & Fa & St & _). cbn [snd] in St.
  inversion St; subst; try discriminate; (eapply IH; [|reflexivity]); rewrite ?map_app, ?list_sum_app in *; cbn [map list_sum fold_right kcost dcost] in *; unfold list_sum in *; cbn [fold_right] in *; try lia.
Qed.

Lemma cat_tgood : forall n P, tgood true n P (NCat n (KLoop 0) 0 []) (fun ys cs => cs = @nil E /\
  exists F, (forall i, i < n -> P i (F i)) /\ interleaving (tot n F) ys).
Proof.
  intros n P. constructor.
  - intros t s a s' ws R W C Sh St. destruct (cat_inv _ _ _ R W) as (d & g & l & -> & I). apply (ca_shut _ _ _ _ _ I) in Sh. pose proof (ca_zero _ _ _ _ _ I Sh) as Z.
    destruct a; auto; inversion St; subst; try discriminate.
    pose proof (ca_wg _ _ _ _ _ I) as Wg. rewrite busy_mid in Wg. cbn in Wg. lia.
  - intros t s ws R W C. destruct (cat_inv _ _ _ R W) as (d & g & l & -> & I).
    assert (Wk : g <> 0 -> (exists a c', aown a = true /\ gstep (E := E) (NCat n d g l) a c') \/ (exists i, i < n /\ forall o, exists c', gstep (E := E) (NCat n d g l) (ARecv i o) c')).
    { intros Ng. assert (X : exists l1 x l2, l = l1 ++ x :: l2 /\ x <> CEnd).
      { rewrite (ca_wg _ _ _ _ _ I) in Ng. clear -Ng. induction l as [|x l IH]; [cbn in Ng; congruence|].
        destruct x; try (exists []; eexists _, _; split; [reflexivity|discriminate]). destruct IH as (l1 & x & l2 & -> & H); [exact Ng|].
        exists (CEnd :: l1), x, l2. auto. }
      destruct X as (l1 & x & l2 & -> & Nx). destruct x as [|v| |]; [| | |congruence].
      - right. exists (length l1). split; [eapply mid_len; eauto|]. intros [v|]; eexists; [apply GRecv|apply GRecvEnd].
      - left. eexists _, _. split; [|apply GSend]. reflexivity.
      - left. destruct g as [|g]; [congruence|]. eexists _, _. split; [|apply GDone]. reflexivity. }
    destruct d as [i| |].
    + right. left. pose proof (ca_len _ _ _ _ _ I) as L1. pose proof (ca_le _ _ _ _ _ I) as L2. destruct (Nat.eq_dec i n) as [->|Ne].
      * eexists _, _. split; [|apply GLoopEnd]. reflexivity.
      * eexists _, _. split; [|apply GSpawn; lia]. reflexivity.
    + right. destruct (Nat.eq_dec g 0) as [->|Ng]; [|now apply Wk]. left. eexists _, _. split; [|apply GShut]. reflexivity.
    + left. cbn. split; auto. apply busy_zero. rewrite <- (ca_wg _ _ _ _ _ I). now apply (ca_zero _ _ _ _ _ I).
  - intros t s ws R W C F. destruct (cat_inv _ _ _ R W) as (d & g & l & -> & I). destruct F as [-> Fl].
    assert (El : forall i, i < n -> nth_error l i = Some CEnd).
    { intros i Li. pose proof (ca_len _ _ _ _ _ I) as L. cbn in L. destruct (nth_error l i) as [x|] eqn:Ex; [|apply nth_error_None in Ex; lia].
      f_equal. rewrite Forall_forall in Fl. apply Fl. eapply nth_error_In; eauto. }
    assert (Z : forall i, i < n -> ws i = []). { intros i Li. apply (C i Li). rewrite (ca_seen _ _ _ _ _ I), El; auto. }
    split; [intros _; now apply (ca_shut _ _ _ _ _ I)|]. split; auto. split; [apply (ca_calls _ _ _ _ _ I)|].
    exists (fun i => arecvs i t). split.
    + intros i Li. destruct (C i Li) as [Pi _]. now rewrite Z, app_nil_r in Pi by auto.
    + pose proof (ca_takes _ _ _ _ _ I (fun _ => [])) as T. cbn beta in T. unfold interleaving.
      rewrite (tot_ext n (fun i => arecvs i t ++ []) (fun i => arecvs i t)) in T by (intros; apply app_nil_r).
      replace (map (fun _ : list V => []) (tot n (fun i => arecvs i t))) with (tot n (fun i => pend (nth_error l i) ++ [])); auto.
      unfold tot. rewrite map_map. apply map_ext_in. intros i Hi. apply in_seq in Hi. rewrite El by lia. reflexivity.
  - intros t s ws R W C. destruct (cat_inv _ _ _ R W) as (d & g & l & -> & I). eapply cat_acc. reflexivity.
  - intros t s ws R W C. destruct (cat_inv _ _ _ R W) as (d & g & l & -> & I). cbn. intros [Z Hin]. apply in_split in Hin. destruct Hin as (l1 & l2 & ->).
    pose proof (ca_wg _ _ _ _ _ I) as Wg. rewrite busy_mid in Wg. cbn in Wg. lia.
Qed.

(** ** Whole expressions *)
Definition sexp_ind2 (Pr : sexp -> Prop) (H1 : forall xs k, Pr (XSrc xs k)) (H2 : forall p k e, Pr e -> Pr (XSeq p k e))
  (H3 : forall f w e, Pr e -> Pr (XWalk f w e)) (H4 : forall es a, Forall Pr es -> Pr a -> Pr (XCat es a)) : forall e, Pr e :=
  fix go (e : sexp) : Pr e :=
    match e with
    | XSrc xs k => H1 xs k
    | XSeq p k e => H2 p k e (go e)
    | XWalk f w e => H3 f w e (go e)
    | XCat es a => H4 es a ((fix gos (l : list sexp) : Forall Pr l := match l with [] => Forall_nil _ | x :: r => Forall_cons x (go x) (gos r) end) es) (go a)
    end.

Lemma gives_imp : forall s0 (P Q : list V -> Prop), (forall ys, P ys -> Q ys) -> @gives V E s0 P -> gives s0 Q.
Proof.
  intros s0 P Q H [G1 G2 G3 G4 G5 G6]. constructor; auto.
  - intros tr s R. destruct (G4 _ _ R) as (ys & Py & Hp). eauto.
  - intros tr s s' R M. eauto.
  - intros tr s R Ov. destruct (G6 _ _ R Ov). auto.
Qed.
Lemma ends_imp : forall s0 (P Q : list E -> Prop), (forall ys, P ys -> Q ys) -> @ends_with V E s0 P -> ends_with s0 Q.
Proof. intros s0 P Q H [G1 G2 G3 G4 G5]. constructor; eauto. intros tr s R. destruct (G4 _ _ R) as (ys & Py & Hp). eauto. Qed.

Lemma src_tgood : forall xs (P : nat -> list V -> Prop), tgood true 0 P (NOne (CSeq (source xs))) (fun ys cs => ys = xs /\ cs = @nil E).
Proof.
  intros xs P.
  assert (Hp : forall us, us = [] -> exists es, ev (E := E) true false (source xs) us es) by (intros us ->; eexists; apply ev_source).
  pose proof (seq_tgood true (source xs) (fun us => us = []) Hp) as [G1 G2 G3 G4 G5].
  (* a source does not read *)
  assert (Nr : forall t s, steps (@gstep V E) (NOne (CSeq (source xs))) t s -> exists ys, (s = NOne (CSeq (sends ys (PClose PEnd))) \/ s = NOne (CSeq PEnd)) /\
     (forall i, arecvs i t = []) /\ (forall i, aseen i t = false)).
  { intros t s R. induction R as [|t s1 a s2 R (ys & Hs & Hr & Hn) St]; [exists xs; auto|].
    assert (X : exists ys, s2 = NOne (CSeq (sends ys (PClose PEnd))) \/ s2 = NOne (CSeq PEnd)).
    { destruct Hs as [->| ->]; destruct (one_inv _ _ _ St) as (c' & -> & Sc & _); [|inversion Sc].
      destruct ys as [|y ys]; cbn [sends] in Sc; inversion Sc; subst; [exists []; auto|exists ys; auto]. }
    destruct X as (ys2 & X). exists ys2. split; auto.
    assert (Na : forall i o, a <> ARecv i o).
    { intros i o ->. destruct Hs as [->| ->]; destruct (one_inv _ _ _ St) as (c' & _ & Sc & _); [|inversion Sc]. destruct ys; cbn in Sc; inversion Sc. }
    split; intros i; [rewrite arecvs_app, Hr|rewrite aseen_app, Hn]; destruct a as [| |j [v|]| |]; auto; exfalso; eapply Na; eauto. }
  assert (Cp : forall t s, steps (@gstep V E) (NOne (CSeq (source xs))) t s -> compl 1 (fun _ us => us = []) t (fun _ => [])).
  { intros t s R i Li. destruct (Nr _ _ R) as (_ & _ & Hr & Hn). rewrite Hr, Hn. split; auto. }
  constructor.
  - intros t c a c' ws R W _ Sh St. exact (G1 t c a c' _ R W (Cp _ _ R) Sh St).
  - intros t s ws R W C. destruct (G2 _ _ _ R W (Cp _ _ R)) as [H|[H|(i & Li & H)]]; auto.
    exfalso. destruct (H None) as (s' & St). assert (R2 := steps_snoc _ _ _ _ _ _ R St). destruct (Nr _ _ R2) as (_ & _ & _ & Hn). specialize (Hn i).
    rewrite aseen_app in Hn. cbn in Hn. rewrite Nat.eqb_refl in Hn. rewrite orb_true_r in Hn. discriminate.
  - intros t s ws R W C F. destruct (G3 _ _ _ R W (Cp _ _ R) F) as (A1 & _ & us & es & -> & He & -> & ->). split; auto. split; [intros; lia|].
    rewrite (ev_det _ _ _ _ _ He _ (ev_source xs)). rewrite outs_app2, outs_sends. cbn. rewrite app_nil_r. split; auto.
    unfold calls. rewrite flat_map_app. cbn. rewrite app_nil_r. clear. induction xs; auto.
  - intros t s ws R W C. pose proof (G4 _ _ _ R W (Cp _ _ R)) as Ac. clear -Ac Nr Cp R. remember (t, s) as x eqn:Ex. revert t s R Ex.
    induction Ac as [x _ IH]. intros t s R ->. constructor. intros [t' s'] (a & Fa & St & Et & W & _). cbn [fst snd] in *. subst t'.
    assert (R' := steps_snoc _ _ _ _ _ _ R St). eapply IH; [|exact R'|reflexivity]. exists a. cbn. split; auto. split; auto. split; auto. split; auto. eexists. eapply Cp; eauto.
  - intros t s ws R W C. eapply G5; eauto.
Qed.

Lemma Forall2_tot : forall (Rl : sexp -> list V -> Prop) es F, (forall i e, nth_error es i = Some e -> Rl e (F i)) -> Forall2 Rl es (tot (length es) F).
Proof.
  intros Rl es. unfold tot. induction es as [|e es IH]; intros F H; cbn; [constructor|]. constructor; [apply (H 0); reflexivity|].
  rewrite <- seq_shift, map_map. apply IH. intros i e' Hi. apply (H (S i)). exact Hi.
Qed.

Lemma single : forall (k : tree) (P : list V -> Prop), gives k P -> forall i k0, nth_error [k] i = Some k0 -> gives k0 P.
Proof. intros k P G [|[|i]] k0 H; try discriminate. now injection H as <-. Qed.

Theorem tree_gives : forall e : sexp, ok e -> gives (plant e) (may e).
Proof.
  induction e as [xs k|p k e IH|f w e IH|es a IHs IH] using sexp_ind2; intros Ok; cbn [plant].
  - eapply gives_imp; [|eapply (n_gives true [] (fun _ _ => False)); [|apply src_tgood|reflexivity]].
    + intros ys (cs & -> & _). constructor.
    + intros [|i] k0 H; discriminate.
  - inversion Ok as [|? ? ? Oe Hw| |]; subst. eapply gives_imp; [|eapply (n_gives true [plant e] (fun _ => may e)); [|apply seq_tgood|reflexivity]].
    + cbn beta. intros ys (cs & xs & es & Hm & He & -> & _). econstructor; [exact Hm|]. eapply ev_works; eauto.
    + intros i k0 Hk. eapply (single (plant e)); eauto.
    + intros xs Hm. destruct (Hw xs Hm) as (ys & W). destruct (works_ev _ _ _ W) as (es & He & _). eauto.
  - inversion Ok as [| |? ? ? Oe Lw|]; subst. eapply gives_imp; [|eapply (n_gives true [plant e] (fun _ => may e)); [|apply walk_tgood; exact Lw|reflexivity]].
    + cbn beta. intros ys (cs & xs & Hm & Hw & _). econstructor; eauto.
    + intros i k0 Hk. eapply (single (plant e)); eauto.
  - inversion Ok as [| | |? ? Os Oa]; subst.
    set (P := fun i => match nth_error (es ++ [a]) i with Some e => may e | None => fun _ => False end).
    assert (El : length (map plant es ++ [plant a]) = S (length es)) by (rewrite app_length, map_length; cbn; lia).
    pose proof (cat_tgood (S (length es)) P) as G. rewrite <- El in G.
    rewrite <- El. eapply gives_imp; [|eapply (n_gives true (map plant es ++ [plant a]) P); [|exact G|reflexivity]].
    + rewrite El. intros ys (cs & _ & F & HF & Hi).
      assert (Hi2 : interleaving (tot (length es) F ++ [F (length es)]) ys).
      { unfold tot in Hi. rewrite seq_S, map_app in Hi. cbn in Hi. exact Hi. }
      econstructor; [| |exact Hi2].
      * apply Forall2_tot. intros i e Hie. assert (Li : i < length es) by (apply nth_error_Some; congruence). specialize (HF i ltac:(lia)). unfold P in HF.
        rewrite nth_error_app1, Hie in HF by auto. exact HF.
      * specialize (HF (length es) ltac:(lia)). unfold P in HF. rewrite nth_mid in HF. exact HF.
    + intros i k0 Hk. unfold P. replace (map plant es ++ [plant a]) with (map plant (es ++ [a])) in Hk by apply map_app.
      rewrite nth_error_map in Hk. destruct (nth_error (es ++ [a]) i) as [e|] eqn:Ee; [|discriminate]. cbn in Hk. injection Hk as <-.
      apply nth_error_In in Ee. apply in_app_iff in Ee. destruct Ee as [Ee|[<-|[]]]; auto. rewrite Forall_forall in IHs, Os. auto.
Qed.

Theorem tree_ends : forall (e : sexp) t plan, ok e ->
  (forall ys, may e ys -> performs t ys (plan ys)) ->
  ends_with (plant_end t e) (fun es => exists ys, may e ys /\ es = calls (plan ys)).
Proof.
  intros e t plan Ok Ht. eapply ends_imp; [|eapply (n_ends false [plant e] (fun _ => may e)); [|apply (seq_tgood false t)]].
  - cbn beta. intros cs (ys & xs & es & Hm & He & _ & ->). exists xs. split; auto. specialize (Ht xs Hm). apply performs_ev in Ht. now rewrite (ev_det _ _ _ _ _ He _ Ht).
  - intros i k0 Hk. eapply (single (plant e)); eauto using tree_gives.
  - intros xs Hm. exists (plan xs). apply performs_ev. auto.
Qed.

End Goods.
