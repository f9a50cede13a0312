(** * Stream expressions: proofs *)
From Coq Require Import List Bool Arith Lia Permutation Wf_nat.
From Verif Require Import Trans NetModel NetSpec NetProofs FanModel FanSpec FanProofs PipeModel PipeSpec PipeProofs TreeModel TreeSpec.
Import ListNotations.
Open Scope nat_scope.

Section Proofs.
Context {V E : Type}.
Notation proc := (proc V E). Notation chan := (chan V). Notation node := (node V E). Notation nact := (nact V E).
Notation tree := (tree V E). Notation qlabel := (qlabel V E). Notation sexp := (sexp V E).

(** ** One operator alone *)
Definition arecvs (i : nat) (t : list nact) : list V := flat_map (fun a => match a with ARecv j (Some v) => if i =? j then [v] else [] | _ => [] end) t.
Definition asents (t : list nact) : list V := flat_map (fun a => match a with ASnd v => [v] | _ => [] end) t.
Definition acalls (t : list nact) : list E := flat_map (fun a => match a with ACall e => [e] | _ => [] end) t.
Definition aseen (i : nat) (t : list nact) : bool := existsb (fun a => match a with ARecv j None => i =? j | _ => false end) t.
Definition ashut (t : list nact) : bool := existsb (fun a => match a with ACls => true | _ => false end) t.
(** no item after the end of that input *)
Inductive awf : list nact -> Prop :=
| awf_nil : awf []
| awf_snoc : forall t a, awf t -> (forall i, aseen i t = true -> arecvs i [a] = []) -> awf (t ++ [a]).

Lemma arecvs_app : forall i a b, arecvs i (a ++ b) = arecvs i a ++ arecvs i b. Proof. intros; apply flat_map_app. Qed.
Lemma asents_app : forall a b, asents (a ++ b) = asents a ++ asents b. Proof. intros; apply flat_map_app. Qed.
Lemma acalls_app : forall a b, acalls (a ++ b) = acalls a ++ acalls b. Proof. intros; apply flat_map_app. Qed.
Lemma aseen_app : forall i a b, aseen i (a ++ b) = aseen i a || aseen i b. Proof. intros; apply existsb_app. Qed.
Lemma ashut_app : forall a b, ashut (a ++ b) = ashut a || ashut b. Proof. intros; apply existsb_app. Qed.
Lemma awf_inv : forall t a, awf (t ++ [a]) -> awf t /\ (forall i, aseen i t = true -> arecvs i [a] = []).
Proof.
  intros t a H. inversion H as [E0|t' a' H1 H2 E0]; [destruct t; discriminate|]. apply app_inj_tail in E0. destruct E0; subst. auto.
Qed.

Definition afree (a : nact) : bool := match a with ARecv _ (Some _) => false | _ => true end.
Definition aown (a : nact) : bool := match a with ARecv _ _ => false | _ => true end.
(** ws completes what was received to something the streams may deliver *)
Definition compl (n : nat) (P : nat -> list V -> Prop) (t : list nact) (ws : nat -> list V) : Prop :=
  forall i, i < n -> P i (arecvs i t ++ ws i) /\ (aseen i t = true -> ws i = []).

(** one step without an item received, which some completion allows *)
Definition astep (n : nat) (P : nat -> list V -> Prop) (x' x : list nact * node) : Prop :=
  exists a, afree a = true /\ gstep (snd x) a (snd x') /\ fst x' = fst x ++ [a] /\ awf (fst x') /\ exists ws, compl n P (fst x') ws.

(** What the rest of the tree relies on *)
Record tgood (cl : bool) (n : nat) (P : nat -> list V -> Prop) (c0 : node) (Q : list V -> list E -> Prop) : Prop := {
  tg_once : forall t c a c' ws, steps gstep c0 t c -> awf t -> compl n P t ws -> ashut t = true -> gstep c a c' ->
    match a with ASnd _ | ACls => False | _ => True end;
  tg_prog : forall t c ws, steps gstep c0 t c -> awf t -> compl n P t ws ->
    nfin c \/ (exists a c', aown a = true /\ gstep c a c') \/ (exists i, i < n /\ forall o, exists c', gstep c (ARecv i o) c');
  tg_fin : forall t c ws, steps gstep c0 t c -> awf t -> compl n P t ws -> nfin c ->
    (cl = true -> ashut t = true) /\ (forall i, i < n -> ws i = []) /\ Q (asents t) (acalls t);
  tg_term : forall t c ws, steps gstep c0 t c -> awf t -> compl n P t ws -> Acc (astep n P) (t, c);
  tg_bad : forall t c ws, steps gstep c0 t c -> awf t -> compl n P t ws -> ~ nbad c }.

(** ** A node and its children *)
Lemma end_move : forall k l k', tmove k l k' -> l = @QEnd V E -> k' = k.
Proof. induction 1; intros El; try discriminate; auto. Qed.
Definition ended_ (k : tree) : Prop := match k with Node _ o _ => ccl o = true /\ cbuf o = [] end.
Lemma ended_iff : forall k, ended_ k <-> tmove k QEnd k.
Proof.
  intros [c [n b cl] ks]. cbn. split.
  - intros [-> ->]. constructor.
  - intros H. inversion H; subst; auto.
Qed.
Lemma ended_keep : forall k l k', tmove k l k' -> ended_ k -> ended_ k' /\ forall v, l <> QOut v.
Proof. induction 1; cbn; intros [Hc Hb]; subst; try discriminate; split; auto; try discriminate; intros v' E0; discriminate. Qed.

Lemma fin_choice : forall (A : Type) (d : A) n (R : nat -> A -> Prop), (forall i, i < n -> exists w, R i w) -> exists ws, forall i, i < n -> R i (ws i).
Proof.
  induction n as [|n IH]; intros R H; [exists (fun _ => d); lia|].
  destruct (IH R) as (ws & Hw); [intros; apply H; lia|]. destruct (H n ltac:(lia)) as (w & Hn).
  exists (fun i => if i =? n then w else ws i). intros i Li. destruct (Nat.eqb_spec i n) as [->|Ne]; auto. apply Hw. lia.
Qed.
Lemma nth_mid : forall (A : Type) (l1 : list A) x l2, nth_error (l1 ++ x :: l2) (length l1) = Some x.
Proof. intros. rewrite nth_error_app2 by lia. now rewrite Nat.sub_diag. Qed.
Lemma nth_other : forall (A : Type) (l1 : list A) x y l2 i, i <> length l1 -> nth_error (l1 ++ x :: l2) i = nth_error (l1 ++ y :: l2) i.
Proof.
  intros A l1 x y l2 i Ne. destruct (Nat.lt_ge_cases i (length l1)); [now rewrite !nth_error_app1 by lia|].
  rewrite !nth_error_app2 by lia. destruct (i - length l1) eqn:E0; [lia|reflexivity].
Qed.

Lemma tdel_app : forall a b : list qlabel, tdelivered (a ++ b) = tdelivered a ++ tdelivered b. Proof. intros; apply flat_map_app. Qed.
Lemma tcalls_app : forall a b : list qlabel, tcalls (a ++ b) = tcalls a ++ tcalls b. Proof. intros; apply flat_map_app. Qed.

Definition down (s' s : tree) : Prop := exists l, l <> QEnd /\ tmove s l s'.
Lemma halts_acc : forall s, thalts s -> Acc down s.
Proof. induction 1 as [s _ IH]. constructor. intros s' (l & Nl & St). eauto. Qed.
Lemma acc_halts : forall s, Acc down s -> thalts s.
Proof. induction 1 as [s _ IH]. constructor. intros l s' Nl St. apply IH. exists l. auto. Qed.

Section Compose.
Variable cl : bool.
Variable ks0 : list tree.
Variable P : nat -> list V -> Prop.
Variable c0 : node.
Variable cap : nat.
Variable Q : list V -> list E -> Prop.
Notation n := (length ks0).
Hypothesis Hkids : forall i k0, nth_error ks0 i = Some k0 -> gives k0 (P i).
Hypothesis Hgood : tgood cl n P c0 Q.

Definition kid_ok (t : list nact) (i : nat) (k : tree) : Prop := exists k0 tr, nth_error ks0 i = Some k0 /\
  steps tmove k0 tr k /\ tdelivered tr = arecvs i t /\ (aseen i t = true -> ended_ k).

Record NI (tr : list qlabel) (c : node) (o : chan) (ks : list tree) (t : list nact) : Prop := {
  ni_run : steps gstep c0 t c; ni_wf : awf t;
  ni_out : asents t = tdelivered tr ++ cbuf o; ni_shut : ashut t = ccl o; ni_calls : acalls t = tcalls tr;
  ni_len : length ks = n; ni_kids : forall i k, nth_error ks i = Some k -> kid_ok t i k }.

Lemma NI_compl : forall tr c o ks t, NI tr c o ks t -> exists ws, compl n P t ws.
Proof.
  intros tr c o ks t [R W O S C L K].
  destruct (fin_choice (list V) [] n (fun i w => P i (arecvs i t ++ w) /\ (aseen i t = true -> w = []))) as (ws & H); [|exists ws; exact H].
  intros i Li. destruct (nth_error ks i) as [k|] eqn:Ek; [|apply nth_error_None in Ek; lia].
  destruct (K i k Ek) as (k0 & tri & E0 & Rk & D & Se). pose proof (Hkids i k0 E0) as G.
  destruct (aseen i t) eqn:Es.
  - exists []. rewrite app_nil_r. split; auto. rewrite <- D. eapply (gi_closed _ _ G); [exact Rk|]. apply ended_iff. auto.
  - destruct (gi_prefix _ _ G _ _ Rk) as (ys & Py & w & ->). exists w. rewrite <- D. split; auto. discriminate.
Qed.

Lemma kid_same : forall t a i k, arecvs i [a] = [] -> aseen i [a] = false -> kid_ok t i k -> kid_ok (t ++ [a]) i k.
Proof.
  intros t a i k H1 H2 (k0 & tr & E0 & R & D & S). exists k0, tr. rewrite arecvs_app, aseen_app, H1, H2, app_nil_r, orb_false_r. auto.
Qed.

Lemma NI_own : forall tr c o ks t a c' o' l, NI tr c o ks t -> aown a = true -> gstep c a c' ->
  asents [a] ++ [] = asents [a] -> tdelivered (tr ++ [l]) ++ cbuf o' = asents t ++ asents [a] ->
  ashut t || ashut [a] = ccl o' -> tcalls [l] = acalls [a] -> NI (tr ++ [l]) c' o' ks (t ++ [a]).
Proof.
  intros tr c o ks t a c' o' l [R W O S C L K] Ow St _ H1 H2 H3.
  assert (Nr : forall i, arecvs i [a] = [] /\ aseen i [a] = false) by (intros i; destruct a as [| |j [v|]| |]; try discriminate; auto).
  constructor.
  - eapply steps_snoc; eauto.
  - constructor; auto. intros i _. apply Nr.
  - rewrite asents_app. auto.
  - rewrite ashut_app. auto.
  - rewrite acalls_app, tcalls_app. congruence.
  - exact L.
  - intros i k Hk. destruct (Nr i). apply kid_same; auto.
Qed.

(** one of the children moves *)
Definition kdown (ks' ks : list tree) : Prop := exists l1 k k' l2, ks = l1 ++ k :: l2 /\ ks' = l1 ++ k' :: l2 /\ down k' k.
Lemma NI_step : forall tr c o ks t l s', NI tr c o ks t -> tmove (Node c o ks) l s' ->
  exists c' o' ks' t', s' = Node c' o' ks' /\ NI (tr ++ [l]) c' o' ks' t' /\
   (l = QEnd \/ kdown ks' ks \/ (ks' = ks /\ exists a, afree a = true /\ gstep c a c' /\ t' = t ++ [a]) \/ (c' = c /\ ks' = ks /\ t' = t /\ length (cbuf o') < length (cbuf o))).
Proof.
  intros tr c o ks t l s' I St.
  assert (Recv : forall c' i ov k', gstep c (ARecv i ov) c' -> (forall l1 k l2, ks = l1 ++ k :: l2 -> i = length l1 ->
     tmove k (match ov with Some v => QOut v | None => QEnd end) k' -> NI (tr ++ [QTau]) c' o (l1 ++ k' :: l2) (t ++ [ARecv i ov]))).
  { intros c' i ov k' Sg l1 k l2 -> -> Mk. destruct I as [R W O S C L K].
    assert (Wn : forall v, ov = Some v -> aseen (length l1) t = true -> False).
    { intros v -> Se. destruct (K (length l1) k (nth_mid _ _ _ _)) as (k0 & tri & _ & _ & _ & Hs). destruct (ended_keep _ _ _ Mk (Hs Se)) as [_ H]. now apply (H v). }
    constructor.
    - eapply steps_snoc; eauto.
    - constructor; auto. intros i Se. cbn. destruct ov as [v|]; auto. destruct (Nat.eqb_spec i (length l1)) as [->|]; auto. exfalso. eauto.
    - rewrite asents_app, tdel_app. cbn. rewrite !app_nil_r. exact O.
    - rewrite ashut_app. cbn. now rewrite orb_false_r.
    - rewrite acalls_app, tcalls_app. cbn. now rewrite !app_nil_r.
    - rewrite app_length in *. cbn in *. lia.
    - intros i k2 Hk. destruct (Nat.eq_dec i (length l1)) as [->|Ne].
      + rewrite nth_mid in Hk. injection Hk as <-. destruct (K (length l1) k (nth_mid _ _ _ _)) as (k0 & tri & E0 & Rk & D & Hs).
        destruct ov as [v|].
        * exists k0, (tri ++ [QOut v]). split; auto. split; [eapply steps_snoc; eauto|].
          rewrite tdel_app, arecvs_app, aseen_app, D. cbn. rewrite Nat.eqb_refl, orb_false_r. split; auto. intros Se. exfalso. eauto.
        * exists k0, tri. pose proof (end_move _ _ _ Mk eq_refl) as ->. split; auto. split; auto.
          rewrite arecvs_app. cbn. rewrite app_nil_r. split; auto. intros _. apply ended_iff. exact Mk.
      + rewrite (nth_other _ _ _ k) in Hk by auto. apply kid_same; auto; cbn.
        * destruct ov; auto. destruct (Nat.eqb_spec i (length l1)); [contradiction|reflexivity].
        * destruct ov; auto. destruct (Nat.eqb_spec i (length l1)); [contradiction|reflexivity]. }
  assert (Kid : forall l1 k k' l2 l0, ks = l1 ++ k :: l2 -> tmove k l0 k' -> tdelivered [l0] = [] -> tdelivered [l] = [] -> tcalls [l] = [] ->
     NI (tr ++ [l]) c o (l1 ++ k' :: l2) t).
  { intros l1 k k' l2 l0 -> Mk D0 D1 D2. destruct I as [R W O S C L K]. constructor; auto.
    - rewrite tdel_app, D1, app_nil_r. exact O.
    - rewrite tcalls_app, D2, app_nil_r. exact C.
    - rewrite app_length in *. cbn in *. lia.
    - intros i k2 Hk. destruct (Nat.eq_dec i (length l1)) as [->|Ne].
      + rewrite nth_mid in Hk. injection Hk as <-. destruct (K (length l1) k (nth_mid _ _ _ _)) as (k0 & tri & E0 & Rk & D & Hs).
        exists k0, (tri ++ [l0]). split; auto. split; [eapply steps_snoc; eauto|]. rewrite tdel_app, D0, app_nil_r. split; auto.
        intros Se. eapply ended_keep; eauto.
      + rewrite (nth_other _ _ _ k) in Hk by auto. auto. }
  pose proof (ni_out _ _ _ _ _ I) as O. pose proof (ni_shut _ _ _ _ _ I) as S.
  destruct (NI_compl _ _ _ _ _ I) as (ws & Cp).
  assert (Once : forall a c', gstep c a c' -> ccl o = true -> match a with ASnd _ | ACls => False | _ => True end).
  { intros a c' Sg Hc. eapply (tg_once _ _ _ _ _ Hgood); eauto using ni_run, ni_wf. }
  assert (KD : forall l1 k k' l2 l0, ks = l1 ++ k :: l2 -> tmove k l0 k' -> l0 <> QEnd -> kdown (l1 ++ k' :: l2) ks).
  { intros l1 k k' l2 l0 -> Mk Nl. exists l1, k, k', l2. split; auto. split; auto. exists l0. auto. }
  inversion St; subst; cbn [cbuf ccl] in *.
  - eexists _, _, _, (t ++ [AInt]). split; [reflexivity|]. split; [|right; right; left; split; [reflexivity|]; exists (AInt); auto].
    eapply NI_own; eauto; cbn; rewrite ?tdel_app, ?app_nil_r, ?orb_false_r; cbn; rewrite ?app_nil_r; auto.
  - eexists _, _, _, (t ++ [ACall e]). split; [reflexivity|]. split; [|right; right; left; split; [reflexivity|]; exists (ACall e); auto].
    eapply NI_own; eauto; cbn; rewrite ?tdel_app, ?app_nil_r, ?orb_false_r; cbn; rewrite ?app_nil_r; auto.
  - eexists _, _, _, (t ++ [ASnd v]). split; [reflexivity|]. split; [|right; right; left; split; [reflexivity|]; exists (ASnd v); auto].
    eapply NI_own; eauto; cbn; rewrite ?tdel_app, ?app_nil_r, ?orb_false_r; cbn; rewrite ?app_nil_r; auto.
    rewrite O. now rewrite app_assoc.
  - eexists _, _, _, (t ++ [ACls]). split; [reflexivity|]. split; [|right; right; left; split; [reflexivity|]; exists (ACls); auto].
    eapply NI_own; eauto; cbn; rewrite ?tdel_app, ?app_nil_r, ?orb_false_r; cbn; rewrite ?app_nil_r; auto.
    now rewrite orb_true_r.
  - eexists _, _, _, t. split; [reflexivity|]. split; [|right; right; right; cbn; auto]. destruct I. constructor; auto; cbn.
    + rewrite tdel_app. cbn. rewrite <- app_assoc. exact O.
    + rewrite tcalls_app. cbn. now rewrite app_nil_r.
  - eexists _, _, _, (t ++ [ASnd v]). split; [reflexivity|]. split; [|right; right; left; split; [reflexivity|]; exists (ASnd v); auto].
    eapply NI_own; eauto; cbn; rewrite ?tdel_app, ?app_nil_r, ?orb_false_r; cbn; rewrite ?app_nil_r; auto.
    rewrite O. now rewrite app_nil_r.
  - eexists _, _, _, t. split; [reflexivity|]. split; [|auto]. destruct I. constructor; auto; cbn.
    + rewrite tdel_app. cbn. rewrite app_nil_r. exact O.
    + rewrite tcalls_app. cbn. now rewrite app_nil_r.
  - eexists _, _, _, (t ++ [ARecv (length l1) (Some v)]). split; [reflexivity|]. split; [eapply Recv; eauto|].
    right. left. eapply KD; eauto. discriminate.
  - eexists _, _, _, (t ++ [ARecv (length l1) None]). split; [reflexivity|]. split; [eapply Recv; eauto|]. right. right. left.
    match goal with H : tmove k QEnd k' |- _ => pose proof (end_move _ _ _ H eq_refl) as -> end.
    split; [reflexivity|]. exists (ARecv (length l1) None). auto.
  - eexists _, _, _, t. split; [reflexivity|]. split; [eapply Kid; eauto|]. right. left. eapply KD; eauto. discriminate.
  - eexists _, _, _, t. split; [reflexivity|]. split; [eapply Kid; eauto|]. right. left. eapply KD; eauto. discriminate.
Qed.

Notation s0 := (Node c0 (Ch cap [] false) ks0).
Lemma NI_steps : forall tr s, steps tmove s0 tr s -> exists c o ks t, s = Node c o ks /\ NI tr c o ks t.
Proof.
  intros tr s H. induction H as [|tr s1 l s2 H (c & o & ks & t & -> & I) St].
  - eexists _, _, _, []. split; [reflexivity|]. constructor; auto; try constructor; auto.
    intros i k Hk. exists k, []. split; auto. split; [apply steps_nil|]. split; auto. discriminate.
  - destruct (NI_step _ _ _ _ _ _ _ I St) as (c' & o' & ks' & t' & -> & I' & _). eauto 6.
Qed.

Lemma n_safe : forall tr s, steps tmove s0 tr s -> ~ tfault s.
Proof.
  intros tr s H F. destruct (NI_steps _ _ H) as (c & o & ks & t & -> & I). destruct (NI_compl _ _ _ _ _ I) as (ws & Cp).
  inversion F; subst.
  - eapply (tg_bad _ _ _ _ _ Hgood); eauto using ni_run, ni_wf.
  - match goal with H : gstep c ?a ?c2, Hc : ccl o = true |- _ =>
      pose proof (tg_once _ _ _ _ _ Hgood _ _ a c2 _ (ni_run _ _ _ _ _ I) (ni_wf _ _ _ _ _ I) Cp ltac:(rewrite (ni_shut _ _ _ _ _ I); exact Hc) H) as X end.
    destruct a; auto.
  - destruct (ni_kids _ _ _ _ _ I (length l1) k (nth_mid _ _ _ _)) as (k0 & tri & E0 & Rk & _). eapply (gi_safe _ _ (Hkids _ _ E0)); eauto.
Qed.

(** a child moves by itself, delivers, or is over *)
Lemma kid_can : forall tr c o ks t i, NI tr c o ks t -> i < n -> (exists l s', l <> QEnd /\ tmove (Node c o ks) l s') \/
  exists l1 k l2, ks = l1 ++ k :: l2 /\ length l1 = i /\ ((exists v k', tmove k (QOut v) k' /\ (exists w, P i (arecvs i t ++ v :: w)) /\ aseen i t = false) \/
    (tover k /\ tmove k QEnd k)).
Proof.
  intros tr c o ks t i I Li. destruct (nth_error ks i) as [k|] eqn:Ek; [|apply nth_error_None in Ek; rewrite (ni_len _ _ _ _ _ I) in Ek; lia].
  destruct (ni_kids _ _ _ _ _ I i k Ek) as (k0 & tri & E0 & Rk & D & Se). pose proof (Hkids i k0 E0) as G.
  destruct (nth_error_split _ _ Ek) as (l1 & l2 & -> & Ll).
  destruct (gi_live _ _ G _ _ Rk) as [(l & k' & Nl & Mk)|Ov].
  - destruct l as [|pt e|v|]; [| | |congruence].
    + left. eexists QTau, _. split; [discriminate|]. apply TKid; eauto.
    + left. eexists _, _. split; [|eapply TKidCall; eauto]. discriminate.
    + right. exists l1, k, l2. split; auto. split; auto. left. exists v, k'. split; auto. split.
      * destruct (gi_prefix _ _ G (tri ++ [QOut v]) k') as (ys & Py & w & ->); [eapply steps_snoc; eauto|]. exists w.
        rewrite tdel_app, D in Py. cbn in Py. now rewrite <- app_assoc in Py.
      * destruct (aseen i t) eqn:Es; auto. destruct (ended_keep _ _ _ Mk (Se eq_refl)) as [_ H]. exfalso. now apply (H v).
  - right. exists l1, k, l2. split; auto. split; auto. right. split; auto. eapply (gi_over _ _ G); eauto.
Qed.

Lemma n_live : forall tr s, steps tmove s0 tr s -> (exists l s', l <> QEnd /\ tmove s l s') \/ tover s.
Proof.
  intros tr s H. destruct (NI_steps _ _ H) as (c & o & ks & t & -> & I). destruct (NI_compl _ _ _ _ _ I) as (ws & Cp).
  pose proof (ni_run _ _ _ _ _ I) as R. pose proof (ni_wf _ _ _ _ _ I) as W.
  destruct (tg_prog _ _ _ _ _ Hgood _ _ _ R W Cp) as [F|[(a & c' & Ow & St)|(i & Li & Re)]].
  - (* the operator has ended *)
    assert (Kd : forall m, m <= n -> (exists l s', l <> QEnd /\ tmove (Node c o ks) l s') \/ forall i k, i < m -> nth_error ks i = Some k -> tover k).
    { induction m as [|m IH]; intros Lm; [right; intros; lia|]. destruct IH as [IH|IH]; [lia|now left|].
      destruct (kid_can _ _ _ _ _ m I ltac:(lia)) as [X|(l1 & k & l2 & -> & <- & [(v & k' & Mk & (w & Pw) & Se)|[Ov _]])]; [now left| |].
      - exfalso. assert (Cp2 : compl n P t (upd ws (length l1) (v :: w))).
        { intros i Li. destruct (upd_cases ws (length l1) i (v :: w)) as [[-> ->]|[Ne ->]]; [|auto]. split; auto. rewrite Se. discriminate. }
        destruct (tg_fin _ _ _ _ _ Hgood _ _ _ R W Cp2 F) as (_ & Z & _). specialize (Z (length l1) ltac:(lia)). rewrite upd_same in Z. discriminate.
      - right. intros i k2 Li Hk. destruct (Nat.eq_dec i (length l1)) as [->|]; [rewrite nth_mid in Hk; now injection Hk as <-|]. apply (IH i); auto. lia. }
    destruct (Kd n (le_n _)) as [X|Kv]; [now left|]. destruct o as [kp [|v b] cc].
    + right. constructor; auto. apply Forall_forall. intros k Hk. apply In_nth_error in Hk. destruct Hk as (i & Hi). apply (Kv i); auto.
      rewrite <- (ni_len _ _ _ _ _ I). apply nth_error_Some. congruence.
    + left. eexists _, _. split; [|apply TTake]. discriminate.
  - left. assert (Hn : match a with ASnd _ | ACls => ccl o = false | _ => True end).
    { pose proof (tg_once _ _ _ _ _ Hgood _ _ a c' _ R W Cp) as X. rewrite (ni_shut _ _ _ _ _ I) in X.
      destruct a; auto; destruct (ccl o); auto; exfalso; exact (X eq_refl St). }
    destruct a as [|e|j ov|v|]; try discriminate.
    + eexists _, _. split; [|apply TInt; eauto]. discriminate.
    + eexists _, _. split; [|apply TCalls; eauto]. discriminate.
    + destruct o as [kp b cc]. cbn in Hn. subst cc. destruct b as [|x b].
      * destruct kp as [|kp]; [eexists _, _; split; [|apply THands; eauto]; discriminate|].
        eexists _, _. split; [|eapply TPut; eauto]; [discriminate|cbn; lia].
      * eexists _, _. split; [|apply TTake]. discriminate.
    + destruct o as [kp b cc]. cbn in Hn. subst cc. eexists _, _. split; [|eapply TShut; eauto]. discriminate.
  - left. destruct (kid_can _ _ _ _ _ i I Li) as [X|(l1 & k & l2 & -> & <- & [(v & k' & Mk & _ & _)|[_ Mk]])]; [exact X| |].
    + destruct (Re (Some v)) as (c' & St). eexists _, _. split; [|eapply TGet; eauto]. discriminate.
    + destruct (Re None) as (c' & St). eexists _, _. split; [|eapply TGetEnd; eauto]. discriminate.
Qed.

Lemma kdown_acc : forall ks, Forall (Acc down) ks -> Acc kdown ks.
Proof.
  induction ks as [|k ks IH]; intros F.
  - constructor. intros ks' (l1 & k & k' & l2 & E0 & _). destruct l1; discriminate.
  - inversion F as [|? ? Ak Fk]; subst. specialize (IH Fk). clear F Fk. revert ks IH. induction Ak as [k _ IHk]. intros ks Aks.
    assert (Ak2 : forall y, down y k -> forall ks, Acc kdown ks -> Acc kdown (y :: ks)) by (intros; now apply IHk). clear IHk.
    induction Aks as [ks Hks IHks]. constructor. intros ks' (l1 & x & x' & l2 & E0 & -> & D). destruct l1 as [|y l1]; injection E0 as -> ->.
    + cbn. apply Ak2; auto. constructor. auto.
    + cbn. apply IHks. exists l1, x, x', l2. auto.
Qed.

Lemma n_acc : forall tr s, steps tmove s0 tr s -> Acc down s.
Proof.
  intros tr s H. destruct (NI_steps _ _ H) as (c & o & ks & t & -> & I). clear H.
  assert (Aks : Acc kdown ks).
  { apply kdown_acc. apply Forall_forall. intros k Hk. apply In_nth_error in Hk. destruct Hk as (i & Hi).
    destruct (ni_kids _ _ _ _ _ I i k Hi) as (k0 & tri & E0 & Rk & _). apply halts_acc. eapply (gi_halts _ _ (Hkids _ _ E0)); eauto. }
  revert tr c o t I. induction Aks as [ks _ IHk]. intros tr c o t I.
  assert (Ac : Acc (astep n P) (t, c)).
  { destruct (NI_compl _ _ _ _ _ I) as (ws & Cp). eapply (tg_term _ _ _ _ _ Hgood); eauto using ni_run, ni_wf. }
  remember (t, c) as x eqn:Ex. revert tr t c o I Ex. induction Ac as [x _ IHc]. intros tr t c o I ->.
  remember (length (cbuf o)) as m eqn:Em. revert tr o I Em. induction m as [m IHm] using lt_wf_ind. intros tr o I ->.
  constructor. intros s' (l & Nl & St). destruct (NI_step _ _ _ _ _ _ _ I St) as (c' & o' & ks' & t' & -> & I' & [El|[Kd|[(-> & a & Fa & Sg & ->)|(-> & -> & -> & Lb)]]]).
  - congruence.
  - eapply IHk; eauto.
  - eapply IHc; [|exact I'|reflexivity]. exists a. cbn. split; auto. split; auto. split; auto. split; [eapply ni_wf; eauto|]. eapply NI_compl; eauto.
  - eapply IHm; eauto.
Qed.

Lemma n_complete : forall tr s, steps tmove s0 tr s -> exists tr' s', steps tmove s tr' s' /\ tover s'.
Proof.
  intros tr s H. pose proof (n_acc _ _ H) as Ac. revert tr H. induction Ac as [s _ IH]. intros tr H.
  destruct (n_live _ _ H) as [(l & s' & Nl & St)|Ov].
  - destruct (IH s' ltac:(exists l; auto) (tr ++ [l]) ltac:(eapply steps_snoc; eauto)) as (tr' & s2 & R & Ov).
    exists (l :: tr'), s2. split; [|exact Ov]. eapply steps_cons; eauto.
  - exists [], s. split; auto; apply steps_nil.
Qed.

Lemma n_over : forall tr s, steps tmove s0 tr s -> tover s -> Q (tdelivered tr) (tcalls tr) /\ (cl = true -> ended_ s).
Proof.
  intros tr s H Ov. destruct (NI_steps _ _ H) as (c & o & ks & t & -> & I). destruct (NI_compl _ _ _ _ _ I) as (ws & Cp).
  inversion Ov as [? ? ? F B _]; subst.
  destruct (tg_fin _ _ _ _ _ Hgood _ _ _ (ni_run _ _ _ _ _ I) (ni_wf _ _ _ _ _ I) Cp F) as (Sh & _ & Hq).
  rewrite (ni_out _ _ _ _ _ I), B, app_nil_r, (ni_calls _ _ _ _ _ I) in Hq. split; auto. intros Hc. cbn. split; auto.
  rewrite <- (ni_shut _ _ _ _ _ I). auto.
Qed.

Lemma ended_steps : forall s tr s', steps tmove s tr s' -> ended_ s -> tdelivered tr = [].
Proof.
  intros s tr s' H He. assert (G : tdelivered tr = [] /\ ended_ s'); [|apply G].
  induction H as [|tr s1 l s2 H [D He2] St]; auto. destruct (ended_keep _ _ _ St He2) as [He3 Hl]. split; auto.
  rewrite tdel_app, D. destruct l; auto. exfalso. now apply (Hl v).
Qed.

Theorem n_gives : cl = true -> gives s0 (fun ys => exists es, Q ys es).
Proof.
  intros Hc. constructor.
  - apply n_safe.
  - apply n_live.
  - intros tr s H. apply acc_halts. eapply n_acc; eauto.
  - intros tr s H. destruct (n_complete _ _ H) as (tr' & s' & R & Ov). exists (tdelivered (tr ++ tr')). split; [|exists (tdelivered tr'); apply tdel_app].
    eexists. apply (n_over (tr ++ tr') s'); auto. eapply steps_app; eauto.
  - intros tr s s' H St. destruct (n_complete _ _ H) as (tr' & s2 & R & Ov).
    assert (He : ended_ s) by (apply ended_iff; now rewrite (end_move _ _ _ St eq_refl) in St).
    destruct (n_over (tr ++ tr') s2) as [Hq _]; auto; [eapply steps_app; eauto|]. rewrite tdel_app, (ended_steps _ _ _ R He), app_nil_r in Hq. eauto.
  - intros tr s H Ov. destruct (n_over _ _ H Ov) as [Hq He]. split; eauto. apply ended_iff. auto.
Qed.

Theorem n_ends : ends_with s0 (fun es => exists ys, Q ys es).
Proof.
  constructor.
  - apply n_safe.
  - apply n_live.
  - intros tr s H. apply acc_halts. eapply n_acc; eauto.
  - intros tr s H. destruct (n_complete _ _ H) as (tr' & s' & R & Ov). exists (tcalls (tr ++ tr')). split; [|exists (tcalls tr'); apply tcalls_app].
    eexists. apply (n_over (tr ++ tr') s'); auto. eapply steps_app; eauto.
  - intros tr s H Ov. destruct (n_over _ _ H Ov) as [Hq _]. eauto.
Qed.
End Compose.
End Proofs.
