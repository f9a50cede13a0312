(** * Walk and Concat: what happens before what, proofs *)
From Coq Require Import List Bool Arith Lia.
From Verif Require Import Trans FanModel FanSpec FanProofs SyncSpec SyncProofs FanSyncModel.
Import ListNotations.
Open Scope nat_scope.

Section P.
Context {X V : Type}.
Variable prog : X -> list (wact V).
Variable lim : option nat.
Variable cap : nat.
Notation ev := (SyncSpec.ev unit object (seenev X V)).
Notation fan := (fan X V).
Notation runs xs := (traced (fun s => s = finit xs) (fan_step prog lim cap) (fan_acts lim cap)).
Implicit Types T : list ev.

(** The steps with what they do to shared memory. *)
Inductive view : fan -> fan -> list ev -> Prop :=
| VAcq : forall i p g l b c w, lim = Some w -> p < w -> view (Fan i DTop p g l b c) (Fan i DRecv (S p) g l b c) [(starter, APut MPool w)]
| VTake : forall x i p g l b c, view (Fan (x :: i) DRecv p g l b c) (Fan i (DHave x) p g l b c) [(starter, ALab (BTake (length l) x))]
| VLast : forall p g l b c, view (Fan [] DRecv p g l b c) (Fan [] DRel p g l b c) []
| VRel : forall i p g l b c w, lim = Some w -> view (Fan i DRel (S p) g l b c) (Fan i DWait p g l b c) [(starter, AGet MPool)]
| VRelN : forall i p g l b c, lim = None -> view (Fan i DRel (S p) g l b c) (Fan i DWait p g l b c) []
| VNext : forall x i p g l b c, lim = None -> view (Fan (x :: i) DTop p g l b c) (Fan i (DHave x) p g l b c) [(starter, ALab (BTake (length l) x))]
| VNextEnd : forall p g l b c, lim = None -> view (Fan [] DTop p g l b c) (Fan [] DWait p g l b c) []
| VSpawn : forall x i p g l b c, view (Fan i (DHave x) p g l b c) (Fan i DTop p (S g) (l ++ [WNew x]) b c) [(starter, AGo (worker (length l)))]
| VStart : forall x i d p g l1 l2 b c, view (Fan i d p g (l1 ++ WNew x :: l2) b c) (Fan i d p g (l1 ++ WRun x (prog x) :: l2) b c)
    [(worker (length l1), ALab (BStart (length l1) x))]
| VTau : forall x a i d p g l1 l2 b c, view (Fan i d p g (l1 ++ WRun x (FanModel.ATau :: a) :: l2) b c) (Fan i d p g (l1 ++ WRun x a :: l2) b c) []
| VSend : forall x v a i d p g l1 l2 b, length b < cap -> view (Fan i d p g (l1 ++ WRun x (FanModel.ASend v :: a) :: l2) b false) (Fan i d p g (l1 ++ WRun x a :: l2) (b ++ [v]) false)
    [(worker (length l1), ALab (BSend (length l1) v)); (worker (length l1), APut MOut cap)]
| VSendH : forall x v a i d p g l1 l2, cap = 0 -> view (Fan i d p g (l1 ++ WRun x (FanModel.ASend v :: a) :: l2) [] false) (Fan i d p g (l1 ++ WRun x a :: l2) [] false)
    [(worker (length l1), ALab (BSend (length l1) v)); (worker (length l1), APut MOut cap); (reader, AGet MOut); (reader, ALab (BOut v))]
| VRet : forall x i d p g l1 l2 b c, view (Fan i d p g (l1 ++ WRun x [] :: l2) b c) (Fan i d p g (l1 ++ WRet x :: l2) b c)
    [(worker (length l1), ALab (BRet (length l1) x))]
| VDone : forall x i d p g l1 l2 b c, view (Fan i d p (S g) (l1 ++ WRet x :: l2) b c) (Fan i d p g (l1 ++ WRel x :: l2) b c) [(worker (length l1), ADone MWg)]
| VFree : forall x i d p g l1 l2 b c w, lim = Some w -> view (Fan i d (S p) g (l1 ++ WRel x :: l2) b c) (Fan i d p g (l1 ++ WEnd x :: l2) b c) [(worker (length l1), AGet MPool)]
| VFreeN : forall x i d p g l1 l2 b c, lim = None -> view (Fan i d p g (l1 ++ WRel x :: l2) b c) (Fan i d p g (l1 ++ WEnd x :: l2) b c) []
| VClose : forall i p l b, view (Fan i DWait p 0 l b false) (Fan i DEnd p 0 l b true) [(starter, AWaited MWg); (starter, AClose MOut)]
| VOut : forall i d p g l v b c, view (Fan i d p g l (v :: b) c) (Fan i d p g l b c) [(reader, AGet MOut); (reader, ALab (BOut v))]
| VOutEnd : forall i d p g l, view (Fan i d p g l [] true) (Fan i d p g l [] true) [(reader, AEnd MOut); (reader, ALab BEnd)].

Lemma moved_at : forall l1 w w' l2 j, tag w <> tag w' -> moved (X := X) (V := V) j (l1 ++ w :: l2) (l1 ++ w' :: l2) = Some (j + length l1, w').
Proof.
  induction l1 as [|a l1 IH]; intros w w' l2 j Hd; cbn [moved app length].
  - destruct (Nat.eqb_spec (tag w) (tag w')) as [E|_]; [contradiction|]. now rewrite Nat.add_0_r.
  - rewrite Nat.eqb_refl, IH by auto. now rewrite Nat.add_succ_r.
Qed.
Lemma moved_same : forall l1 w w' l2 j, tag w = tag w' -> moved (X := X) (V := V) j (l1 ++ w :: l2) (l1 ++ w' :: l2) = None.
Proof.
  assert (R : forall l j, moved (X := X) (V := V) j l l = None) by (induction l as [|a l IH]; intros j; cbn; auto; now rewrite Nat.eqb_refl).
  induction l1 as [|a l1 IH]; intros w w' l2 j Hd; cbn [moved app].
  - rewrite Hd, Nat.eqb_refl. apply R.
  - now rewrite Nat.eqb_refl, IH.
Qed.
Lemma view_of : forall s l s', fan_step prog lim cap s l s' -> view s s' (fan_acts lim cap s l).
Proof.
  intros s [l s1] s' [St E]. cbn [fst snd] in *. subst s1. unfold fan_acts. cbn [fst snd].
  destruct St; cbn [fan_tau dp ws]; try (now constructor).
  - unfold fan_tau, acquire. cbn [dp]. rewrite H. now constructor.
  - unfold fan_tau, release. cbn [dp]. destruct lim eqn:E; [eapply VRel; eauto|now apply VRelN].
  - replace (fan_tau _ _ _) with (@nil ev); [constructor|]. unfold fan_tau. cbn [dp ws]. rewrite moved_same by reflexivity. now destruct d.
  - replace (fan_tau _ _ _) with [(worker (length l1), ADone MWg) : ev]; [constructor|]. unfold fan_tau. cbn [dp ws]. rewrite moved_at by discriminate. now destruct d.
  - replace (fan_tau _ _ _) with [(worker (length l1), AGet MPool) : ev]; [eapply VFree; eauto|].
    unfold fan_tau, release. cbn [dp ws]. rewrite moved_at, H by discriminate. now destruct d.
  - replace (fan_tau _ _ _) with (@nil ev); [now constructor|].
    unfold fan_tau, release. cbn [dp ws]. rewrite moved_at, H by discriminate. now destruct d.
Qed.

Lemma inv_runs : forall xs tr T s, runs xs tr T s -> inv prog lim cap xs (map fst tr) s.
Proof.
  intros xs. apply traced_ind_inv.
  - intros s ->. now apply inv_init.
  - intros tr T s l s' _ I [St _]. rewrite map_app. eapply inv_step; eauto.
Qed.

(** ** The starter, the workers and the end *)
Definition ret_ok T (i : nat) (x : X) (w : wst X V) : Prop :=
  match w with WRet y => y = x | WRel y | WEnd y => y = x /\ past T (ADone MWg) i | _ => False end.
Definition has T (j : nat) (w : wst X V) : Prop :=
  match w with
  | WNew x => exists i, nth_error T i = Some (starter, ALab (BTake j x)) /\ past T (AGo (worker j)) i
  | WRun _ _ => True
  | WRet x | WRel x | WEnd x => exists i, nth_error T i = Some (worker j, ALab (BRet j x))
  end.
Record J T (s : fan) : Prop := {
  j_have : forall x, dp s = DHave x -> exists i, nth_error T i = Some (starter, ALab (BTake (length (ws s)) x));
  j_ws : forall j w, nth_error (ws s) j = Some w -> has T j w;
  j_ret : forall i u j x, nth_error T i = Some (u, ALab (BRet j x)) -> u = worker j /\ exists w, nth_error (ws s) j = Some w /\ ret_ok T i x w;
  j_start : forall k u j x, nth_error T k = Some (u, ALab (BStart j x)) -> u = worker j /\ exists i, nth_error T i = Some (starter, ALab (BTake j x)) /\ hb T i k;
  j_cl : fcl s = true -> forall i u j x, nth_error T i = Some (u, ALab (BRet j x)) -> past T (AClose MOut) i;
  j_end : forall k u, nth_error T k = Some (u, ALab BEnd) -> u = reader /\ fcl s = true /\
    forall i v j x, nth_error T i = Some (v, ALab (BRet j x)) -> hb T i k
}.

Lemma has_app : forall T E j w, has T j w -> has (T ++ E) j w.
Proof.
  intros T E j [x|x a|x|x|x]; cbn; auto; try (intros (i & H); exists i; now apply nth_app_l).
  intros (i & H & P). exists i. split; [now apply nth_app_l|now apply past_app].
Qed.
Lemma ret_app : forall T E i x w, ret_ok T i x w -> ret_ok (T ++ E) i x w.
Proof. intros T E i x [y|y a|y|y|y]; cbn; auto; intros [-> P]; split; auto; now apply past_app. Qed.
Lemma nth_repl : forall {A} (l1 : list A) w w' l2 j u, nth_error (l1 ++ w' :: l2) j = Some u -> (j = length l1 /\ u = w') \/ (j <> length l1 /\ nth_error (l1 ++ w :: l2) j = Some u).
Proof.
  intros A l1 w w' l2 j u H. destruct (Nat.lt_trichotomy j (length l1)) as [L|[->|L]].
  - right. split; [lia|]. rewrite nth_error_app1 in * by auto. auto.
  - left. rewrite nth_error_app2, Nat.sub_diag in H by auto. cbn in H. split; congruence.
  - right. split; [lia|]. rewrite nth_error_app2 in * by lia. destruct (j - length l1) as [|m] eqn:E; [lia|]. auto.
Qed.
Lemma nth_lt' : forall {A} (l : list A) j w, nth_error l j = Some w -> j < length l.
Proof. intros A l j w H. apply nth_error_Some. now rewrite H. Qed.
Lemma nth_mid : forall {A} (l1 : list A) w l2, nth_error (l1 ++ w :: l2) (length l1) = Some w.
Proof. intros. now rewrite nth_error_app2, Nat.sub_diag by auto. Qed.
Lemma nth_keep : forall {A} (l1 : list A) w w' l2 j u, nth_error (l1 ++ w :: l2) j = Some u -> j <> length l1 -> nth_error (l1 ++ w' :: l2) j = Some u.
Proof. intros A l1 w w' l2 j u H Hd. destruct (nth_repl l1 w' w l2 j u H) as [[E _]|[_ E]]; [contradiction|auto]. Qed.

Ltac newev Hn := let Hl := fresh "Hl" in let m := fresh "m" in let Em := fresh "Em" in
  match type of Hn with nth_error (?T ++ ?E) ?k = _ =>
    destruct (Nat.lt_ge_cases k (length T)) as [Hl|Hl];
    [rewrite nth_error_app1 in Hn by exact Hl
    |rewrite nth_error_app2 in Hn by exact Hl; remember (k - length T) as m eqn:Em; destruct m as [|[|[|[|m]]]]; cbn [nth_error] in Hn; try discriminate; try (destruct m; discriminate); injection Hn; clear Hn; intros; subst]
  end.

Lemma live_closed : forall xs tr s l1 w l2, inv prog lim cap xs tr s -> ws s = l1 ++ w :: l2 -> live w = 1 -> fcl s = false.
Proof.
  intros xs tr s l1 w l2 I E L. destruct (fcl s) eqn:C; auto. exfalso. apply (i_cl _ _ _ _ _ _ I) in C. apply (i_end _ _ _ _ _ _ I) in C.
  rewrite (i_wg _ _ _ _ _ _ I), E in C. pose proof (live_in l1 w l2 L). lia.
Qed.
Lemma all_done : forall xs tr s j w, inv prog lim cap xs tr s -> wg s = 0 -> nth_error (ws s) j = Some w -> live w = 0.
Proof.
  intros xs tr s j w I E Hn. apply nth_error_split in Hn. destruct Hn as (l1 & l2 & Hw & _). rewrite (i_wg _ _ _ _ _ _ I), Hw in E.
  destruct (live w) as [|[|n]] eqn:L; auto; [pose proof (live_in l1 w l2 L); lia|destruct w; discriminate].
Qed.

Lemma ws_repl : forall T l1 w0 w1 l2, (forall j w, nth_error (l1 ++ w0 :: l2) j = Some w -> has T j w) -> has T (length l1) w1 ->
  forall j w, nth_error (l1 ++ w1 :: l2) j = Some w -> has T j w.
Proof. intros T l1 w0 w1 l2 H H1 j w Hn. destruct (nth_repl l1 w0 w1 l2 j w Hn) as [[-> ->]|[_ Hn']]; auto. Qed.
Lemma ret_repl : forall (P : nat -> nat -> nat -> X -> Prop) T l1 w0 w1 l2,
  (forall i u j x, P i u j x -> u = worker j /\ exists w, nth_error (l1 ++ w0 :: l2) j = Some w /\ ret_ok T i x w) ->
  (forall i x, P i (worker (length l1)) (length l1) x -> ret_ok T i x w0 -> ret_ok T i x w1) ->
  forall i u j x, P i u j x -> u = worker j /\ exists w, nth_error (l1 ++ w1 :: l2) j = Some w /\ ret_ok T i x w.
Proof.
  intros P T l1 w0 w1 l2 H H1 i u j x Hp. destruct (H _ _ _ _ Hp) as (Hu & w & Hw & K). split; auto.
  destruct (Nat.eq_dec j (length l1)) as [->|Hd].
  - rewrite nth_mid in Hw. injection Hw as <-. exists w1. split; [apply nth_mid|]. apply H1; auto. now rewrite <- Hu.
  - exists w. split; auto. eapply nth_keep; eauto.
Qed.
Lemma len_repl : forall {A} (l1 : list A) w w' l2, length (l1 ++ w :: l2) = length (l1 ++ w' :: l2).
Proof. intros. now rewrite !app_length. Qed.

Lemma J_all : forall xs tr T s, runs xs tr T s -> J T s.
Proof.
  intros xs. apply traced_ind_inv.
  - intros s ->. constructor; cbn; try discriminate; intros; try (destruct j; discriminate); try (destruct i; discriminate); destruct k; discriminate.
  - intros tr T s l s' R [Jh Jw Jr Js Jc Je] St. apply inv_runs in R. apply view_of in St. remember (fan_acts lim cap s l) as E eqn:HE. clear HE.
    assert (Oh : forall x, dp s = DHave x -> exists i, nth_error (T ++ E) i = Some (starter, ALab (BTake (length (ws s)) x))).
    { intros x D. destruct (Jh x D) as (i & H). exists i. now apply nth_app_l. }
    assert (Ow : forall j w, nth_error (ws s) j = Some w -> has (T ++ E) j w) by (intros; apply has_app; auto).
    assert (Or : forall i u j x, nth_error T i = Some (u, ALab (BRet j x)) -> u = worker j /\ exists w, nth_error (ws s) j = Some w /\ ret_ok (T ++ E) i x w).
    { intros i u j x H. destruct (Jr _ _ _ _ H) as (Hu & w & Hw & K). split; auto. exists w. split; auto. now apply ret_app. }
    assert (Os : forall k u j x, nth_error T k = Some (u, ALab (BStart j x)) -> u = worker j /\ exists i, nth_error (T ++ E) i = Some (starter, ALab (BTake j x)) /\ hb (T ++ E) i k).
    { intros k u j x H. destruct (Js _ _ _ _ H) as (Hu & i & Hi & K). split; auto. exists i. split; [now apply nth_app_l|now apply hb_app]. }
    assert (Oc : fcl s = true -> forall i u j x, nth_error T i = Some (u, ALab (BRet j x)) -> past (T ++ E) (AClose MOut) i) by (intros; eapply past_app, Jc; eauto).
    assert (Oe : forall k u, nth_error T k = Some (u, ALab BEnd) -> u = reader /\ fcl s = true /\ forall i v j x, nth_error T i = Some (v, ALab (BRet j x)) -> hb (T ++ E) i k).
    { intros k u H. destruct (Je _ _ H) as (Hu & Hc & K). repeat split; auto. intros. eapply hb_app, K; eauto. }
    destruct St; cbn [dp ws fcl] in *; constructor; cbn [dp ws fcl]; try discriminate; auto.
    all: try solve [let Hn := fresh in intros ? ? ? ? Hn; newev Hn; eauto].
    all: try solve [let Hn := fresh in intros ? ? Hn; newev Hn; destruct (Oe _ _ Hn) as (? & ? & K); repeat split; auto; let Hm := fresh in intros ? ? ? ? Hm; newev Hm; eauto].
    all: try solve [let Hn := fresh in intros Hc ? ? ? ? Hn; newev Hn; eauto].
    all: try solve [intros ? D; destruct (Oh _ D) as (i9 & Hi); exists i9; rewrite Hi; now rewrite !app_length].
    all: try solve [refine (ws_repl _ _ _ _ _ Ow _); cbn; auto; refine (Ow _ _ (nth_mid _ _ _))].
    all: try solve [intros ? ? ? ? Hn; newev Hn; revert Hn; refine (ret_repl (fun i u j x => nth_error T i = Some (u, ALab (BRet j x))) _ _ _ _ _ Or _ _ _ _ _); cbn; tauto].
    + intros y [= <-]. exists (length T). apply nth_last.
    + intros y [= <-]. exists (length T). apply nth_last.
    + intros j w Hn. destruct (Nat.lt_ge_cases j (length l0)) as [L|L].
      * rewrite nth_error_app1 in Hn by auto. auto.
      * assert (j = length l0) as -> by (apply nth_lt' in Hn; rewrite app_length in Hn; cbn in Hn; lia).
        rewrite nth_mid in Hn. injection Hn as <-. cbn. destruct (Jh x eq_refl) as (i9 & Hi). exists i9. split; [now apply nth_app_l|].
        apply seen_past. eapply seen_self; eauto.
    + intros i9 u j y Hn. newev Hn. destruct (Or _ _ _ _ Hn) as (Hu & w & Hw & K). split; auto. exists w. split; auto. now rewrite nth_error_app1 by (now apply nth_lt' in Hw).
    + intros k u j y Hn. newev Hn; [eauto|]. assert (k = length T) as -> by lia. split; auto. destruct (Jw _ _ (nth_mid _ _ _)) as (i9 & Hi & P).
      exists i9. split; [now apply nth_app_l|]. eapply past_next; [exact P|constructor].
    + refine (ws_repl _ _ _ _ _ Ow _). exists (length T). apply nth_last.
    + intros i9 u j y Hn. newev Hn; [|split; auto; exists (WRet y); split; [apply nth_mid|reflexivity]].
      revert Hn; refine (ret_repl (fun i u j x => nth_error T i = Some (u, ALab (BRet j x))) _ _ _ _ _ Or _ _ _ _ _); cbn; tauto.
    + intros ->. exfalso. pose proof (live_closed _ _ _ _ _ _ R eq_refl eq_refl). discriminate.
    + intros k u Hn. newev Hn. exfalso. destruct (Je _ _ Hn) as (_ & C & _). pose proof (live_closed _ _ _ _ _ _ R eq_refl eq_refl). cbn in *. congruence.
    + intros i9 u j y Hn. newev Hn. revert Hn; refine (ret_repl (fun i u j x => nth_error T i = Some (u, ALab (BRet j x))) _ _ _ _ _ Or _ _ _ _ _).
      cbn [ret_ok]. intros i8 z Hn ->. split; auto. apply seen_past. eapply seen_self; eauto.
    + intros _ i9 u j y Hn. newev Hn. destruct (Jr _ _ _ _ Hn) as (_ & w & Hw & K). pose proof (all_done _ _ _ _ _ R eq_refl Hw) as L.
      assert (P : past T (ADone MWg) i9) by (destruct w; cbn in *; try discriminate; try contradiction; apply K).
      change [(starter, AWaited MWg); (starter, AClose MOut)] with ([(starter, AWaited MWg)] ++ [(starter, AClose MOut) : ev]). rewrite app_assoc.
      apply seen_past. eapply past_seen; [exact P|constructor].
    + intros k u Hn. newev Hn.
      * destruct (Oe _ _ Hn) as (Hu & Hc & K). repeat split; auto. intros i9 v j y Hm. newev Hm. eauto.
      * split; auto. split; auto. intros i9 v j y Hm. newev Hm. assert (k = S (length T)) as -> by lia.
        change [(reader, AEnd MOut); (reader, ALab BEnd)] with ([(reader, AEnd MOut)] ++ [(reader, ALab BEnd) : ev]). rewrite app_assoc.
        replace (S (length T)) with (length (T ++ [(reader, AEnd MOut) : ev])) by (etransitivity; [apply app_length|cbn; lia]).
        apply seen_next. eapply past_seen; [eapply Jc; eauto|constructor].
Qed.

(** ** One worker: one after the other *)
(** Event i is, or happens before, the last operation on the pool, which holds p values and of which n have been received. *)
Definition lastp T (p n i : nat) : Prop :=
  match p with
  | 0 => exists m q, n = S m /\ kth (gets MPool) T m q /\ (i = q \/ hb T i q)
  | _ => exists q, kth (puts MPool) T n q /\ (i = q \/ hb T i q)
  end.
Lemma lastp_app : forall T E p n i, lastp T p n i -> lastp (T ++ E) p n i.
Proof.
  intros T E [|p] n i; cbn.
  - intros (m & q & -> & K & O). exists m, q. split; auto. split; [now apply kth_app|destruct O; auto using hb_app].
  - intros (q & K & O). exists q. split; [now apply kth_app|destruct O; auto using hb_app].
Qed.
Lemma or_hb : forall T i q k, i = q \/ hb T i q -> hb T q k -> hb T i k.
Proof. intros T i q k [->|H] H'; auto. eapply hb_tr; eauto. Qed.
(** The next send on the pool, when it is empty, and the next receive, when it is full *)
Lemma lastp_put : forall T n i t, counts (puts MPool) T n -> lastp T 0 n i -> hb (T ++ [(t, APut MPool 1)]) i (length T).
Proof.
  intros T n i t Hc (m & q & -> & K & O). apply or_hb with q; [destruct O; auto using hb_app|].
  eapply hb_room with (k := m) (n := 1) (c := MPool); [eapply kth_lt; eauto|now apply kth_app|apply nth_last|].
  rewrite Nat.add_1_r. apply kth_last; auto. now exists 1.
Qed.
Lemma lastp_get : forall T n i t, counts (gets MPool) T n -> lastp T 1 n i -> hb (T ++ [(t, AGet MPool)]) i (length T).
Proof.
  intros T n i t Hc (q & K & O). apply or_hb with q; [destruct O; auto using hb_app|].
  eapply hb_chan with (c := MPool); [eapply kth_lt; eauto|apply kth_app; exact K|]. apply kth_last; [auto|reflexivity].
Qed.

Record K1 T (s : fan) : Prop := {
  k_pool : exists n, counts (gets MPool) T n /\ counts (puts MPool) T (n + pool s) /\
    forall j x, nth_error (ws s) j = Some (WEnd x) -> exists i, nth_error T i = Some (worker j, ALab (BRet j x)) /\ lastp T (pool s) n i;
  k_top : match dp s with DRecv | DHave _ => forall j w, nth_error (ws s) j = Some w -> exists i x, nth_error T i = Some (worker j, ALab (BRet j x)) /\ seen T i starter | _ => True end;
  k_new : forall j x, nth_error (ws s) j = Some (WNew x) -> forall j', j' < j -> exists i y, nth_error T i = Some (worker j', ALab (BRet j' y)) /\ past T (AGo (worker j)) i;
  k_start : forall k u j x, nth_error T k = Some (u, ALab (BStart j x)) -> forall j', j' < j -> exists i y, nth_error T i = Some (worker j', ALab (BRet j' y)) /\ hb T i k
}.
Lemma all_ended : forall xs tr s j w, inv prog lim cap xs tr s -> lim = Some 1 -> slot (dp s) + pool s = 0 \/ slot (dp s) = 1 -> nth_error (ws s) j = Some w -> exists x, w = WEnd x.
Proof.
  intros xs tr s j w I E P Hn. apply nth_error_split in Hn. destruct Hn as (l1 & l2 & Hw & _).
  destruct (i_pool _ _ _ _ _ _ I _ E) as [Ep Lp]. rewrite Hw in Ep.
  destruct w; eauto; exfalso; pose proof (nonend_in (X := X) (V := V) l1) as N;
    match type of Hw with _ = _ ++ ?w :: _ => specialize (N w l2 eq_refl) end; lia.
Qed.
Lemma counts_yes : forall (P : act unit object (seenev X V) -> Prop) T t a n, counts P T n -> P a -> counts P (T ++ [(t, a)]) (S n).
Proof. intros. now constructor. Qed.
Lemma counts_no : forall (P : act unit object (seenev X V) -> Prop) T t a n, counts P T n -> ~ P a -> counts P (T ++ [(t, a)]) n.
Proof. intros. now constructor. Qed.
Lemma np_get : forall c a, (match a with AGet _ => False | _ => True end) -> ~ gets (L := unit) (M := object) (B := seenev X V) c a.
Proof. intros c a H ->. exact H. Qed.
Lemma np_put : forall c a, (match a with APut _ _ => False | _ => True end) -> ~ puts (L := unit) (M := object) (B := seenev X V) c a.
Proof. intros c a H [n ->]. exact H. Qed.
Ltac quietly := rewrite ?app_nil_r; repeat (apply counts_no; [|first [apply np_get; exact I|apply np_put; exact I|intros G; discriminate G|intros [? G]; discriminate G]]); auto.
(** Several events at once, as one after the other *)
Lemma two : forall T (a b : ev), T ++ [a; b] = (T ++ [a]) ++ [b]. Proof. intros. now rewrite <- app_assoc. Qed.
Lemma four : forall T (a b c d : ev), T ++ [a; b; c; d] = (((T ++ [a]) ++ [b]) ++ [c]) ++ [d]. Proof. intros. now rewrite <- !app_assoc. Qed.

Lemma nth_snoc' : forall {A} (l : list A) x j y, nth_error (l ++ [x]) j = Some y -> nth_error l j = Some y \/ j = length l /\ y = x.
Proof.
  intros A l x j y H. destruct (Nat.lt_ge_cases j (length l)) as [L|L]; [left; now rewrite nth_error_app1 in H|right].
  rewrite nth_error_app2 in H by auto. destruct (j - length l) as [|m] eqn:E; cbn in H; [|destruct m; discriminate]. split; [lia|congruence].
Qed.
Lemma con_repl : forall {A} (c : X -> A) (Q : nat -> X -> Prop) l1 w0 w1 l2, (forall j x, nth_error (l1 ++ w0 :: l2) j = Some (c x) -> Q j x) -> (forall x, w1 <> c x) ->
  forall j x, nth_error (l1 ++ w1 :: l2) j = Some (c x) -> Q j x.
Proof. intros A c Q l1 w0 w1 l2 H Hd j x Hn. destruct (nth_repl l1 w0 w1 l2 _ _ Hn) as [[-> Ew]|[_ Hn']]; [symmetry in Ew; now apply Hd in Ew|auto]. Qed.

Lemma K1_all : forall xs tr T s, lim = Some 1 -> runs xs tr T s -> K1 T s.
Proof.
  intros xs tr T s H1. revert tr T s. apply (traced_ind_inv _ _ _ (fun _ T s => K1 T s)).
  - intros s ->. constructor; cbn; auto; try (intros [|j]; discriminate); try (intros [|k]; discriminate).
    exists 0. repeat split; try constructor. intros [|j]; discriminate.
  - intros tr T s l s' R [(n & Kg & Kp & Ke) Kt Kn Ks] St. pose proof (J_all _ _ _ _ R) as [_ Jw _ _ _ _]. apply inv_runs in R. apply view_of in St. remember (fan_acts lim cap s l) as E eqn:HE. clear HE.
    assert (Oe : forall j x, nth_error (ws s) j = Some (WEnd x) -> exists i, nth_error (T ++ E) i = Some (worker j, ALab (BRet j x)) /\ lastp (T ++ E) (pool s) n i).
    { intros j x H. destruct (Ke _ _ H) as (i & Hi & K). exists i. split; [now apply nth_app_l|now apply lastp_app]. }
    assert (Ot : match dp s with DRecv | DHave _ => forall j w, nth_error (ws s) j = Some w -> exists i x, nth_error (T ++ E) i = Some (worker j, ALab (BRet j x)) /\ seen (T ++ E) i starter | _ => True end).
    { destruct (dp s); auto; intros j w H; destruct (Kt _ _ H) as (i & y & Hi & K); exists i, y; (split; [now apply nth_app_l|now apply seen_app]). }
    assert (On : forall j x, nth_error (ws s) j = Some (WNew x) -> forall j', j' < j -> exists i y, nth_error (T ++ E) i = Some (worker j', ALab (BRet j' y)) /\ past (T ++ E) (AGo (worker j)) i).
    { intros j x H j' L. destruct (Kn _ _ H _ L) as (i & y & Hi & K); exists i, y; (split; [now apply nth_app_l|now apply past_app]). }
    assert (Os : forall k u j x, nth_error T k = Some (u, ALab (BStart j x)) -> forall j', j' < j -> exists i y, nth_error (T ++ E) i = Some (worker j', ALab (BRet j' y)) /\ hb (T ++ E) i k).
    { intros k u j x H j' L. destruct (Ks _ _ _ _ H _ L) as (i & y & Hi & K); exists i, y; (split; [now apply nth_app_l|now apply hb_app]). }
    destruct St; cbn [dp ws fcl pool] in *; constructor; cbn [dp ws fcl pool]; try discriminate; auto.
    all: try solve [intros ? ? ? ? Hn; newev Hn; eauto].
    all: try solve [exists n; rewrite ?two, ?four in *; repeat split; [quietly..|auto]].
    all: try congruence.
    all: try solve [exists n; split; [rewrite ?two, ?four; quietly|]; split; [rewrite ?two, ?four; quietly|]; refine (con_repl _ _ _ _ _ _ Oe _); discriminate].
    all: try solve [refine (con_repl _ _ _ _ _ _ On _); discriminate].
    all: try solve [destruct d; auto; exfalso; destruct (all_ended _ _ _ _ _ R H1 (or_intror eq_refl) (nth_mid _ _ _)); discriminate].
    + assert (w = 1) as -> by congruence. assert (p = 0) as -> by lia. exists n. split; [quietly|]. split; [rewrite Nat.add_0_r in Kp; rewrite Nat.add_1_r; apply counts_yes; [auto|now exists 1]|].
      intros j y Hn. destruct (Ke _ _ Hn) as (i9 & Hi & K). exists i9. split; [now apply nth_app_l|]. rewrite Nat.add_0_r in Kp. exists (length T). split; [apply kth_last; [auto|now exists 1]|].
      right. now apply lastp_put with n.
    + assert (w = 1) as -> by congruence. assert (p = 0) as -> by lia. intros j y Hn.
      destruct (all_ended _ _ _ _ _ R H1 (or_introl eq_refl) Hn) as (z & ->). destruct (Ke _ _ Hn) as (i9 & Hi & K). exists i9, z. split; [now apply nth_app_l|].
      apply hb_seen. rewrite Nat.add_0_r in Kp. now apply lastp_put with n.
    + assert (p = 0) as -> by (destruct (i_pool _ _ _ _ _ _ R _ H1); cbn in *; lia). exists (S n). split; [apply counts_yes; [auto|reflexivity]|]. split; [rewrite Nat.add_1_r in Kp; rewrite Nat.add_0_r; quietly|].
      intros j y Hn. destruct (Ke _ _ Hn) as (i9 & Hi & K). exists i9. split; [now apply nth_app_l|]. exists n, (length T). split; auto. split; [apply kth_last; [auto|reflexivity]|].
      right. now apply lastp_get with n.
    + exists n. split; [quietly|]. split; [quietly|]. intros j y Hn. apply Oe. destruct (nth_snoc' _ _ _ _ Hn) as [Hn'|[_ E]]; [auto|discriminate].
    + intros j y Hn j' L. destruct (nth_snoc' _ _ _ _ Hn) as [Hn'|[-> E]]; [eauto|].
      destruct (nth_error l0 j') as [w|] eqn:Hw; [|apply nth_error_None in Hw; lia]. destruct (Kt _ _ Hw) as (i9 & z & Hi & K).
      exists i9, z. split; [now apply nth_app_l|]. now apply seen_past.
    + intros k u j y Hn j' L. newev Hn; [eauto|]. assert (k = length T) as -> by lia. destruct (Kn _ _ (nth_mid _ _ _) _ L) as (i9 & z & Hi & P).
      exists i9, z. split; [now apply nth_app_l|]. eapply past_next; [exact P|constructor].
    + assert (p = 0) as -> by (destruct (i_pool _ _ _ _ _ _ R _ H1); cbn in *; lia). exists (S n). split; [apply counts_yes; [auto|reflexivity]|]. split; [rewrite Nat.add_1_r in Kp; rewrite Nat.add_0_r; quietly|].
      intros j y Hn. assert (Q : kth (gets MPool) (T ++ [(worker (length l1), AGet MPool)]) n (length T)) by (apply kth_last; [auto|reflexivity]).
      destruct (nth_repl l1 (WRel x) _ l2 _ _ Hn) as [[-> Ew]|[_ Hn']].
      * injection Ew as ->. destruct (Jw _ _ (nth_mid _ _ _)) as (i9 & Hi). exists i9. split; [now apply nth_app_l|]. exists n, (length T). split; auto. split; auto.
        right. apply seen_next. eapply seen_self; eauto.
      * destruct (Ke _ _ Hn') as (i9 & Hi & K). exists i9. split; [now apply nth_app_l|]. exists n, (length T). split; auto. split; auto. right. now apply lastp_get with n.
Qed.

(** ** What is written and what is read *)
Definition is_send (a : act unit object (seenev X V)) : Prop := exists j v, a = ALab (BSend j v).
Definition is_out (a : act unit object (seenev X V)) : Prop := exists v, a = ALab (BOut v).
Definition sent T (c : nat) (v : V) : Prop := exists i j q, nth_error T i = Some (worker j, ALab (BSend j v)) /\ kth is_send T c i /\ kth (puts MOut) T c q /\ hb T i q.
Record Q1 T (s : fan) : Prop := {
  q_cnt : exists n, counts (gets MOut) T n /\ counts is_out T n /\ counts (puts MOut) T (n + length (fbuf s)) /\ counts is_send T (n + length (fbuf s)) /\
    forall m v, nth_error (fbuf s) m = Some v -> sent T (n + m) v;
  q_out : forall k u v, nth_error T k = Some (u, ALab (BOut v)) -> u = reader /\
    exists c i j, nth_error T i = Some (worker j, ALab (BSend j v)) /\ kth is_send T c i /\ kth is_out T c k /\ hb T i k
}.
Lemma sent_app : forall T E c v, sent T c v -> sent (T ++ E) c v.
Proof. intros T E c v (i & j & q & H & A & B & C). exists i, j, q. split; [now apply nth_app_l|]. split; [now apply kth_app|]. split; [now apply kth_app|now apply hb_app]. Qed.
(** A receive of the value sent as number c *)
Lemma sent_get : forall T c v t, sent T c v -> counts (gets MOut) T c ->
  exists i j, nth_error T i = Some (worker j, ALab (BSend j v)) /\ kth is_send T c i /\ hb (T ++ [(t, AGet MOut)]) i (length T).
Proof.
  intros T c v t (i & j & q & H & A & B & C) Hg. exists i, j. split; [auto|]. split; [auto|]. eapply hb_tr; [apply hb_app; exact C|].
  eapply hb_chan with (c := MOut); [eapply kth_lt; eauto|apply kth_app; exact B|]. apply kth_last; [auto|reflexivity].
Qed.
(** A send, after its label *)
Lemma sent_put : forall T c j v n, counts is_send T c -> counts (puts MOut) T c ->
  sent (T ++ [(worker j, ALab (BSend j v)); (worker j, APut MOut n)]) c v.
Proof.
  intros T c j v n Hs Hp. rewrite two. exists (length T), j, (length (T ++ [(worker j, ALab (BSend j v)) : ev])).
  split; [apply nth_app_l, nth_last|]. split; [apply kth_app, kth_last; [auto|now exists j, v]|].
  split; [apply kth_last; [quietly|now exists n]|]. apply seen_next. eapply seen_self, nth_last.
Qed.
Ltac silent := rewrite ?app_nil_r; repeat (apply counts_no; [|first [apply np_get; exact I|apply np_put; exact I|intros G; discriminate G|intros [? G]; discriminate G|intros (? & ? & G); discriminate G]]); auto.

Lemma Q1_all : forall xs tr T s, runs xs tr T s -> Q1 T s.
Proof.
  intros xs. apply (traced_ind_inv _ _ _ (fun _ T s => Q1 T s)).
  - intros s ->. constructor; cbn; [|intros [|k]; discriminate]. exists 0. repeat split; try constructor. intros [|m]; discriminate.
  - intros tr T s l s' _ [(n & Qg & Qo & Qp & Qs & Qb) Qk] St. apply view_of in St. remember (fan_acts lim cap s l) as E eqn:HE. clear HE.
    assert (Ob : forall m v, nth_error (fbuf s) m = Some v -> sent (T ++ E) (n + m) v) by (intros; apply sent_app; auto).
    assert (Ok : forall k u v, nth_error T k = Some (u, ALab (BOut v)) -> u = reader /\
      exists c i j, nth_error (T ++ E) i = Some (worker j, ALab (BSend j v)) /\ kth is_send (T ++ E) c i /\ kth is_out (T ++ E) c k /\ hb (T ++ E) i k).
    { intros k u v H. destruct (Qk _ _ _ H) as (Hu & c & i & j & A & B & C & D). split; auto. exists c, i, j.
      split; [now apply nth_app_l|]. split; [now apply kth_app|]. split; [now apply kth_app|now apply hb_app]. }
    destruct St; cbn [fbuf] in *; (constructor; cbn [fbuf]; [|try solve [intros ? ? ? Hn; newev Hn; eauto]]).
    all: try solve [exists n; split; [rewrite ?two; silent|]; split; [rewrite ?two; silent|]; split; [rewrite ?two; silent|]; split; [rewrite ?two; silent|auto]].
    + exists n. split; [rewrite two; silent|]. split; [rewrite two; silent|]. rewrite app_length. cbn [length].
      replace (n + (length b + 1)) with (S (n + length b)) by lia. split; [rewrite two; apply counts_yes; [silent|now exists cap]|].
      split; [rewrite two; apply counts_no; [apply counts_yes; [auto|now exists (length l1), v]|intros (? & ? & G); discriminate]|].
      intros m y Hm. destruct (nth_snoc' _ _ _ _ Hm) as [Hm'|[-> ->]]; [auto|]. now apply sent_put.
    + cbn [length] in *. rewrite Nat.add_0_r in *. exists (S n). rewrite four, Nat.add_0_r.
      split; [apply counts_no; [apply counts_yes; [silent|reflexivity]|intros G; discriminate]|].
      split; [apply counts_yes; [silent|now exists v]|].
      split; [apply counts_no; [apply counts_no; [apply counts_yes; [silent|now exists cap]|intros [? G]; discriminate]|intros [? G]; discriminate]|].
      split; [apply counts_no; [apply counts_no; [apply counts_no; [apply counts_yes; [auto|now exists (length l1), v]|]|]|]; intros (? & ? & G); discriminate|].
      intros [|m]; discriminate.
    + match goal with C0 : cap = 0 |- _ => clear C0 end. cbn [length] in *. rewrite Nat.add_0_r in *. intros k u y Hn. newev Hn; [eauto|]. assert (k = S (S (S (length T)))) as -> by lia. split; auto.
      pose proof (sent_put T n (length l1) y cap Qs Qp) as P.
      assert (G : counts (gets MOut) (T ++ [(worker (length l1), ALab (BSend (length l1) y)); (worker (length l1), APut MOut cap)]) n) by (rewrite two; silent).
      destruct (sent_get _ _ _ reader P G) as (i9 & j9 & A & B & C). exists n, i9, j9. rewrite four, <- (two T).
      split; [now do 2 apply nth_app_l|]. split; [now do 2 apply kth_app|].
      clear Ok Ob. set (T2 := T ++ [(worker (length l1), ALab (BSend (length l1) y)); (worker (length l1), APut MOut cap)]) in *.
      assert (length T2 = S (S (length T))) as L by (transitivity (length T + 2); [apply app_length|lia]).
      replace (S (S (S (length T)))) with (length (T2 ++ [(reader, AGet MOut) : ev])) by (rewrite <- L; transitivity (length T2 + 1); [apply app_length|lia]).
      split; [apply kth_last; [subst T2; rewrite two; apply counts_no; [apply counts_no; [apply counts_no; [exact Qo|]|]|]; (intros [? G9]; discriminate G9)|now exists y]|]. apply seen_next, hb_seen, C.
    + cbn [length] in *. exists (S n). rewrite two. split; [apply counts_no; [apply counts_yes; [auto|reflexivity]|intros G; discriminate]|].
      split; [apply counts_yes; [silent|now exists v]|]. replace (S n + length b) with (n + S (length b)) by lia. split; [silent|]. split; [silent|].
      intros m y Hm. replace (S n + m) with (n + S m) by lia. rewrite <- two. now apply Ob.
    + intros k u y Hn. newev Hn; [eauto|]. assert (k = S (length T)) as -> by lia. split; auto.
      specialize (Qb 0 y eq_refl). rewrite Nat.add_0_r in Qb. destruct (sent_get _ _ _ reader Qb Qg) as (i9 & j9 & A & B & C). exists n, i9, j9. rewrite two.
      split; [now do 2 apply nth_app_l|]. split; [now do 2 apply kth_app|].
      replace (S (length T)) with (length (T ++ [(reader, AGet MOut) : ev])) by (transitivity (length T + 1); [apply app_length|lia]).
      split; [apply kth_last; [silent|now exists y]|]. apply seen_next, hb_seen, C.
Qed.
End P.
