(** * Happens-before in mapreduce.Map: invariants for C109 *)
From Coq Require Import List Bool Arith Lia.
From Verif Require Import Trans MapRedModel MapRedSpec MapRedProofs SyncSpec SyncProofs SyncMore MapRedSyncModel.
Import ListNotations.
Open Scope nat_scope.

Section P.
Context {X V : Type}.
Variable f : X -> mprog V.
Variable w : nat.
Notation ev := (SyncSpec.ev unit mobject (mseen X V)).
Notation mr := (mr X V).
Notation runs xs := (traced (fun s => s = minit xs) (mr_step f w) mr_acts).

Lemma does_step : forall s l s' E, does f w s l s' E -> mstep f w s l s'.
Proof. intros s l s' E []; now constructor. Qed.
Lemma step_does : forall s l s', mstep f w s l s' -> exists E, does f w s l s' E.
Proof. intros s l s' []; eexists; now constructor. Qed.
Lemma inv_runs : forall xs tr T s, runs xs tr T s -> inv f w xs (map fst tr) s.
Proof.
  intros xs tr T s H. induction H as [s ->|tr T s [l E] s' H IH St]; [apply inv_init|]. rewrite map_app. cbn [map fst]. eapply inv_step; [exact IH|]. eapply does_step; exact St.
Qed.

Lemma nth_repl : forall {A} (l1 : list A) w w' l2 j u, nth_error (l1 ++ w' :: l2) j = Some u -> (j = length l1 /\ u = w') \/ (j <> length l1 /\ nth_error (l1 ++ w :: l2) j = Some u).
Proof.
  intros A l1 w0 w' l2 j u H. destruct (Nat.lt_trichotomy j (length l1)) as [L|[->|L]].
  - right. split; [lia|]. rewrite nth_error_app1 in * by auto. auto.
  - left. rewrite nth_error_app2, Nat.sub_diag in H by auto. cbn in H. split; congruence.
  - right. split; [lia|]. rewrite nth_error_app2 in * by lia. destruct (j - length l1) as [|m] eqn:E; [lia|]. auto.
Qed.
Lemma rep_all : forall {A} (P : nat -> A -> Prop) l1 t0 t1 l2, (forall j t, nth_error (l1 ++ t0 :: l2) j = Some t -> P j t) -> P (length l1) t1 -> forall j t, nth_error (l1 ++ t1 :: l2) j = Some t -> P j t.
Proof. intros A P l1 t0 t1 l2 H H1 j t Hn. destruct (nth_repl l1 t0 t1 l2 _ _ Hn) as [[-> ->]|[_ Hn']]; auto. Qed.
Lemma nth_mid : forall {A} (l1 : list A) w l2, nth_error (l1 ++ w :: l2) (length l1) = Some w.
Proof. intros. now rewrite nth_error_app2, Nat.sub_diag by auto. Qed.
Lemma nth_snoc' : forall {A} (l : list A) x j y, nth_error (l ++ [x]) j = Some y -> nth_error l j = Some y \/ j = length l /\ y = x.
Proof.
  intros A l x j y H. destruct (Nat.lt_ge_cases j (length l)) as [L|L]; [left; now rewrite nth_error_app1 in H|right].
  rewrite nth_error_app2 in H by auto. destruct (j - length l) as [|m] eqn:E; cbn in H; [|destruct m; discriminate]. split; [lia|congruence].
Qed.
Lemma len_one : forall {A} (l : list A) x, S (length l) = length (l ++ [x]).
Proof. intros. rewrite app_length. cbn. lia. Qed.
Lemma two : forall T (a b : ev), T ++ [a; b] = (T ++ [a]) ++ [b]. Proof. intros. now rewrite <- app_assoc. Qed.
Lemma three : forall T (a b c : ev), T ++ [a; b; c] = ((T ++ [a]) ++ [b]) ++ [c]. Proof. intros. now rewrite <- !app_assoc. Qed.

(** Event i is the end of the call for the j-th item x, or the end of ctx. *)
Definition ended (T : list ev) (i j : nat) (x : X) : Prop := nth_error T i = Some (mapper j, ALab (BRet j x)) \/ nth_error T i = Some (mapper j, ALab (BPan j x)).
Definition over (T : list ev) (i j : nat) (x : X) : Prop := ended T i j x \/ nth_error T i = Some (canceller, ALab BCancel).
Lemma over_app : forall T E i j x, over T i j x -> over (T ++ E) i j x.
Proof. intros T E i j x [[H|H]|H]; [left; left|left; right|right]; now apply nth_app_l. Qed.
Lemma ended_app : forall T E i j x, ended T i j x -> ended (T ++ E) i j x.
Proof. intros T E i j x [H|H]; [left|right]; now apply nth_app_l. Qed.

Record TK (T : list ev) (j : nat) (t : task X V) : Prop := {
  t_new : op t = ONew -> exists i, nth_error T i = Some (gener, ALab (BGen j (tx t))) /\ past T (AGo (runner j)) i;
  t_go : ip t = IGo -> exists i, nth_error T i = Some (gener, ALab (BGen j (tx t))) /\ past T (AGo (mapper j)) i;
  t_def : forall b, op t = ODef b -> exists i, over T i j (tx t) /\ seen T i (runner j);
  t_rel : (exists b, op t = ORel b) \/ op t = OEnd -> exists i, over T i j (tx t) /\ past T (ADone MWg) i /\ seen T i (runner j);
  t_done : ip t = IDone -> exists i, nth_error T i = Some (mapper j, ALab (BRet j (tx t))) /\ past T (ASend (MDone j)) i;
  t_pan : ip t = IPan -> exists i, nth_error T i = Some (mapper j, ALab (BPan j (tx t))) /\ past T (ASend (MPanic j)) i
}.
Lemma past_go : forall (T : list ev) i j u, past T (AGo j) i -> past (T ++ [(j, AGo u)]) (AGo u) i.
Proof. intros T i j u P. exists (length T), j. split; [apply nth_last|]. right. eapply past_next; [exact P|constructor]. Qed.
Lemma TK_app : forall T E j t, TK T j t -> TK (T ++ E) j t.
Proof.
  intros T E j t [A A' B C D F]. constructor.
  - intros H. destruct (A H) as (i & Hi & P). exists i. split; [now apply nth_app_l|now apply past_app].
  - intros H. destruct (A' H) as (i & Hi & P). exists i. split; [now apply nth_app_l|now apply past_app].
  - intros b H. destruct (B b H) as (i & Hi & P). exists i. split; [now apply over_app|now apply seen_app].
  - intros H. destruct (C H) as (i & Hi & P & Q). exists i. split; [now apply over_app|]. split; [now apply past_app|now apply seen_app].
  - intros H. destruct (D H) as (i & Hi & P). exists i. split; [now apply nth_app_l|now apply past_app].
  - intros H. destruct (F H) as (i & Hi & P). exists i. split; [now apply nth_app_l|now apply past_app].
Qed.

Record G (xs : list X) (T : list ev) (s : mr) : Prop := {
  g_can : can s = true -> exists i, nth_error T i = Some (canceller, ALab BCancel) /\ past T (AClose MCtx) i;
  g_hand : forall x, mp s = MHave x \/ mp s = MAcq x -> exists i, nth_error T i = Some (gener, ALab (BGen (length (tasks s)) x)) /\ seen T i domap;
  g_src : mp s = MWait \/ mp s = MEnd -> gcl s = true \/ exists i, nth_error T i = Some (canceller, ALab BCancel) /\ seen T i domap;
  g_tk : forall j t, nth_error (tasks s) j = Some t -> TK T j t;
  g_cl : ccl s = true -> forall j x, nth_error xs j = Some x -> exists i, over T i j x /\ past T (AClose MCol) i;
  g_end : forall k u, nth_error T k = Some (u, ALab BEnd) -> u = reader /\ forall j x, nth_error xs j = Some x -> exists i, over T i j x /\ hb T i k;
  g_call : forall k u j x, nth_error T k = Some (u, ALab (BCall j x)) -> u = mapper j /\ exists i, nth_error T i = Some (gener, ALab (BGen j x)) /\ hb T i k;
  g_src_ch : exists n, counts (puts MSrc) T n /\ counts (gets MSrc) T n
}.
(** What is kept when the trace grows *)
Lemma hb_last2 : forall T t (a b : act unit mobject (mseen X V)), hb (T ++ [(t, a); (t, b)]) (length T) (S (length T)).
Proof.
  intros T t a b. eapply hb_po; [| |]; [lia|rewrite nth_error_app2, Nat.sub_diag by lia; reflexivity|].
  rewrite nth_error_app2 by lia. replace (S (length T) - length T) with 1 by lia. reflexivity.
Qed.
Lemma past_last2 : forall T t b (c : act unit mobject (mseen X V)), past (T ++ [(t, b); (t, c)]) c (length T).
Proof. intros T t b c. rewrite two. apply seen_past. apply seen_here. Qed.
Ltac newev Hn := let Hl := fresh "Hl" in let m := fresh "m" in let Em := fresh "Em" in
  match type of Hn with nth_error (?T ++ ?E) ?k = _ =>
    destruct (Nat.lt_ge_cases k (length T)) as [Hl|Hl];
    [rewrite nth_error_app1 in Hn by exact Hl
    |rewrite nth_error_app2 in Hn by exact Hl; remember (k - length T) as m eqn:Em; destruct m as [|[|[|[|m]]]]; cbn [nth_error] in Hn; try discriminate; try (destruct m; discriminate); injection Hn; clear Hn; intros; subst]
  end.
Ltac quietly := rewrite ?app_nil_r, ?three, ?two; repeat (apply c_no; [|first [intros Q9; discriminate Q9|intros [? Q9]; discriminate Q9]]); auto.

Lemma past_two : forall T i t (e : ev) c, seen T i t -> past (T ++ [e; (t, c)]) c i.
Proof. intros T i t e c H. rewrite two. apply seen_past. now apply seen_app. Qed.
Lemma nth_fst : forall T (e : ev) E, nth_error (T ++ e :: E) (length T) = Some e.
Proof. intros. now rewrite nth_error_app2, Nat.sub_diag by auto. Qed.
Lemma hb_then : forall T i t (a b : act unit mobject (mseen X V)), hb (T ++ [(t, a)]) i (length T) -> hb (T ++ [(t, a); (t, b)]) i (S (length T)).
Proof. intros T i t a b H. eapply hb_tr; [|apply hb_last2]. rewrite two. now apply hb_app. Qed.
Lemma len_tasks : forall xs tr s j x, inv f w xs tr s -> nth_error xs j = Some x -> mhand (mp s) = [] -> gen s = [] -> exists t, nth_error (tasks s) j = Some t /\ tx t = x.
Proof.
  intros xs tr s j x I Hx Hm Hg. rewrite (i_xs _ _ _ _ _ I), Hm, Hg, app_nil_r in Hx. rewrite nth_error_map in Hx. destruct (nth_error (tasks s) j) as [t|]; [|discriminate]. exists t. split; [auto|]. cbn in Hx. congruence.
Qed.
Lemma dead_rel : forall l j (t : task X V), sumt live l = 0 -> nth_error l j = Some t -> (exists b, op t = ORel b) \/ op t = OEnd.
Proof.
  intros l j t H Hn. pose proof (proj1 (Forall_forall _ _) (dead_all _ H) t (nth_error_In _ _ Hn)) as D. unfold live in D. destruct (op t); try discriminate; eauto.
Qed.
Lemma tk_repl : forall T l1 (t0 t1 : task X V) l2, (forall j t, nth_error (l1 ++ t0 :: l2) j = Some t -> TK T j t) -> TK T (length l1) t1 -> forall j t, nth_error (l1 ++ t1 :: l2) j = Some t -> TK T j t.
Proof. intros T l1 t0 t1 l2 H H1 j t Hn. destruct (nth_repl l1 t0 t1 l2 _ _ Hn) as [[-> ->]|[_ Hn']]; auto. Qed.

Lemma G_all : forall xs tr T s, runs xs tr T s -> G xs T s.
Proof.
  intros xs. apply (traced_ind_inv _ _ _ (fun _ T s => G xs T s)).
  - intros s ->. constructor; cbn; try discriminate; try (intros [|k]; discriminate).
    + intros x [H|H]; discriminate.
    + exists 0. split; constructor.
  - intros tr T s [l E] s' R [Gc Gh Gs Gt Gl Ge Gk (n & Gp & Gg)] St. unfold mr_step in St. cbn [fst snd] in St. unfold mr_acts. cbn [snd].
    pose proof (inv_runs _ _ _ _ R) as I.
    assert (Oc : can s = true -> exists i, nth_error (T ++ E) i = Some (canceller, ALab BCancel) /\ past (T ++ E) (AClose MCtx) i).
    { intros H. destruct (Gc H) as (i & Hi & P). exists i. split; [now apply nth_app_l|now apply past_app]. }
    assert (Oh : forall x, mp s = MHave x \/ mp s = MAcq x -> exists i, nth_error (T ++ E) i = Some (gener, ALab (BGen (length (tasks s)) x)) /\ seen (T ++ E) i domap).
    { intros x H. destruct (Gh x H) as (i & Hi & P). exists i. split; [now apply nth_app_l|now apply seen_app]. }
    assert (Os : mp s = MWait \/ mp s = MEnd -> gcl s = true \/ exists i, nth_error (T ++ E) i = Some (canceller, ALab BCancel) /\ seen (T ++ E) i domap).
    { intros H. destruct (Gs H) as [C|(i & Hi & P)]; [now left|right]. exists i. split; [now apply nth_app_l|now apply seen_app]. }
    assert (Ot : forall j t, nth_error (tasks s) j = Some t -> TK (T ++ E) j t) by (intros; apply TK_app; auto).
    assert (Ol : ccl s = true -> forall j x, nth_error xs j = Some x -> exists i, over (T ++ E) i j x /\ past (T ++ E) (AClose MCol) i).
    { intros H j x Hx. destruct (Gl H j x Hx) as (i & Hi & P). exists i. split; [now apply over_app|now apply past_app]. }
    assert (Oe : forall k u, nth_error T k = Some (u, ALab BEnd) -> u = reader /\ forall j x, nth_error xs j = Some x -> exists i, over (T ++ E) i j x /\ hb (T ++ E) i k).
    { intros k u H. destruct (Ge k u H) as (Hu & K). split; auto. intros j x Hx. destruct (K j x Hx) as (i & Hi & P). exists i. split; [now apply over_app|now apply hb_app]. }
    assert (Ok : forall k u j x, nth_error T k = Some (u, ALab (BCall j x)) -> u = mapper j /\ exists i, nth_error (T ++ E) i = Some (gener, ALab (BGen j x)) /\ hb (T ++ E) i k).
    { intros k u j x H. destruct (Gk k u j x H) as (Hu & i & Hi & P). split; auto. exists i. split; [now apply nth_app_l|now apply hb_app]. }
    destruct St; cbn [can mp tasks ccl gcl gen] in *; constructor; cbn [can mp tasks ccl gcl gen]; auto.
    all: try (intros z [Hz|Hz]; discriminate).
    all: try (intros [Hz|Hz]; discriminate).
    all: try solve [intros ? ? Hn; newev Hn; eauto].
    all: try solve [intros ? ? ? ? Hn; newev Hn; eauto].
    all: try solve [exists n; split; quietly].
    all: try discriminate.
    all: try solve [intros z; auto].
    all: try solve [intros z Hz; destruct (Oh z Hz) as (i9 & Hi9 & P9); exists i9; rewrite app_length in *; cbn [length] in *; auto].
    all: try (apply (tk_repl _ _ _ _ _ Ot); pose proof (Ot _ _ (nth_mid l1 _ l2)) as [Ka Kz Kb Kc Kd Kf]; pose proof (Gt _ _ (nth_mid l1 _ l2)) as [La Lz Lb Lc Ld Lf]; cbn [tx op ip] in *; constructor; cbn [tx op ip]; auto; try discriminate; try (intros [[b9 Hb]|Hb]; discriminate)).
    + intros _. exists (length T). split; [apply nth_fst|apply past_last2].
    + intros _. right. destruct (Gc eq_refl) as (i & Hi & P). exists i. split; [now apply nth_app_l|]. eapply past_seen; [exact P|constructor].
    + intros z [Hz|Hz]; [|discriminate]. injection Hz as <-. exists (length T). split; [apply nth_fst|]. rewrite three. apply hb_seen.
      assert (Hp : counts (puts MSrc) (T ++ [(gener, ALab (BGen (length l) x))]) n) by quietly.
      assert (Hg : counts (gets MSrc) ((T ++ [(gener, ALab (BGen (length l) x))]) ++ [(gener, APut MSrc 0)]) n) by quietly.
      eapply hb_tr; [apply hb_app; rewrite <- two; apply hb_last2|].
      assert (Kp : kth (puts MSrc) ((T ++ [(gener, ALab (BGen (length l) x))]) ++ [(gener, APut MSrc 0)]) n (length (T ++ [(gener, ALab (BGen (length l) x))]))) by (apply kth_last; [exact Hp|now exists 0]). rewrite <- (len_one T) in Kp.
      eapply hb_chan with (c := MSrc) (k := n); [eapply kth_lt; exact Kp|apply kth_app; exact Kp|apply kth_last; [exact Hg|reflexivity]].
    + exists (S n). rewrite three. split.
      * apply c_no; [|intros [? Q]; discriminate Q]. apply c_yes; [|now exists 0]. quietly.
      * apply c_yes; [|reflexivity]. quietly.
    + intros z [Hz|Hz]; [discriminate|]. injection Hz as <-. apply Oh. now left.
    + intros j t Hn. destruct (nth_snoc' _ _ _ _ Hn) as [Hn'|[-> ->]]; [auto|]. destruct (Gh x (or_intror eq_refl)) as (i & Hi & P).
      constructor; cbn [tx op ip]; try discriminate; [|intros [[? Q]|Q]; discriminate Q]. intros _. exists i. split; [now apply nth_app_l|]. now apply past_two.
    + intros _ j x Hx. pose proof (i_wg _ _ _ _ _ I) as W. cbn in W. rewrite Nat.add_0_r in W.
      destruct (Gs (or_introl eq_refl)) as [->|(i & Hi & P)].
      * pose proof (i_gcl _ _ _ _ _ I eq_refl) as Hg. destruct (len_tasks _ _ _ j x I Hx eq_refl Hg) as (t & Ht & <-). cbn [tasks] in Ht.
        destruct (t_rel _ _ _ (Gt _ _ Ht) (dead_rel _ _ _ (eq_sym W) Ht)) as (i & Ho & P & _). exists i. split; [now apply over_app|].
        rewrite two. apply seen_past. eapply past_seen; [exact P|constructor].
      * exists i. split; [right; now apply nth_app_l|]. now apply past_two.
    + intros b0 _. destruct (Gc eq_refl) as (i0 & Hi & P). exists i0. split; [right; now apply nth_app_l|]. eapply past_seen; [exact P|constructor].
    + intros _. destruct (La eq_refl) as (i0 & Hi & P). exists i0. split; [now apply nth_app_l|]. now apply past_go with (j := runner (length l1)).
    + intros k u j y Hn. newev Hn; [eauto|]. split; [reflexivity|]. destruct (t_go _ _ _ (Gt _ _ (nth_mid l1 _ l2)) eq_refl) as (i0 & Hi & P). cbn [tx] in Hi. exists i0. split; [now apply nth_app_l|].
      replace k with (length T) by lia. eapply past_next; [exact P|constructor].
    + intros b0 _. destruct (Lf eq_refl) as (i0 & Hi & P). exists i0. split; [left; right; now apply nth_app_l|]. eapply past_seen; [exact P|constructor].
    + intros b0 _. destruct (Ld eq_refl) as (i0 & Hi & P). exists i0. split; [left; left; now apply nth_app_l|]. eapply past_seen; [exact P|constructor].
    + intros b0 _. destruct (Gc eq_refl) as (i0 & Hi & P). exists i0. split; [right; now apply nth_app_l|]. eapply past_seen; [exact P|constructor].
    + intros _. destruct (Lb d eq_refl) as (i0 & Ho & P). exists i0. split; [now apply over_app|]. split; [now apply seen_past|now apply seen_app].
    + intros _. apply Kc. left. now exists false.
    + intros _. apply Kc. left. now exists true.
    + intros _. exists (length T). split; [apply nth_fst|apply past_last2].
    + intros _. exists (length T). split; [apply nth_fst|apply past_last2].
    + intros _. exists (length T). split; [apply nth_fst|apply past_last2].
    + intros k u Hn. newev Hn; [eauto|]. split; [reflexivity|]. intros j x Hx. destruct (Gl eq_refl j x Hx) as (i & Ho & P). exists i. split; [now apply over_app|].
      replace k with (S (length T)) by lia. apply hb_then. eapply past_next; [exact P|constructor].
Qed.

(** ** What is written and what is read *)
Definition is_send (a : act unit mobject (mseen X V)) : Prop := exists j v, a = ALab (BSend j v).
Definition is_out (a : act unit mobject (mseen X V)) : Prop := exists v, a = ALab (BOut v).
Definition sent (T : list ev) (c : nat) (v : V) : Prop := exists i j q, nth_error T i = Some (mapper j, ALab (BSend j v)) /\ kth is_send T c i /\ kth (puts MCol) T c q /\ hb T i q.
Record Q1 (T : list ev) (s : mr) : Prop := {
  q_cnt : exists n, counts (gets MCol) T n /\ counts is_out T n /\ counts (puts MCol) T (n + length (cbuf s)) /\ counts is_send T (n + length (cbuf s)) /\
    forall m v, nth_error (cbuf s) m = Some v -> sent T (n + m) v;
  q_out : forall k u v, nth_error T k = Some (u, ALab (BOut v)) -> u = reader /\
    exists c i j, nth_error T i = Some (mapper j, ALab (BSend j v)) /\ kth is_send T c i /\ kth is_out T c k /\ hb T i k
}.
Lemma sent_app : forall T E c v, sent T c v -> sent (T ++ E) c v.
Proof. intros T E c v (i & j & q & H & A & B & C). exists i, j, q. split; [now apply nth_app_l|]. split; [now apply kth_app|]. split; [now apply kth_app|now apply hb_app]. Qed.
(** A receive of the value sent as number c *)
Lemma sent_get : forall T c v t, sent T c v -> counts (gets MCol) T c ->
  exists i j, nth_error T i = Some (mapper j, ALab (BSend j v)) /\ kth is_send T c i /\ hb (T ++ [(t, AGet MCol)]) i (length T).
Proof.
  intros T c v t (i & j & q & H & A & B & C) Hg. exists i, j. split; [auto|]. split; [auto|]. eapply hb_tr; [apply hb_app; exact C|].
  eapply hb_chan with (c := MCol); [eapply kth_lt; eauto|apply kth_app; exact B|]. apply kth_last; [auto|reflexivity].
Qed.
(** A send, after its label *)
Lemma sent_put : forall T c j v n, counts is_send T c -> counts (puts MCol) T c ->
  sent (T ++ [(mapper j, ALab (BSend j v)); (mapper j, APut MCol n)]) c v.
Proof.
  intros T c j v n Hs Hp. rewrite two. exists (length T), j, (length (T ++ [(mapper j, ALab (BSend j v)) : ev])).
  split; [apply nth_app_l, nth_last|]. split; [apply kth_app, kth_last; [auto|now exists j, v]|].
  split; [apply kth_last; [quietly|now exists n]|]. apply seen_next. eapply seen_self, nth_last.
Qed.
Ltac silent := rewrite ?app_nil_r, ?three, ?two; repeat (apply c_no; [|first [intros G9; discriminate G9|intros [? G9]; discriminate G9|intros (? & ? & G9); discriminate G9]]); auto.

Lemma Q1_all : forall xs tr T s, runs xs tr T s -> Q1 T s.
Proof.
  intros xs. apply (traced_ind_inv _ _ _ (fun _ T s => Q1 T s)).
  - intros s ->. constructor; cbn; [|intros [|k]; discriminate]. exists 0. repeat split; try constructor. intros [|m]; discriminate.
  - intros tr T s [l E] s' _ [(n & Qg & Qo & Qp & Qs & Qb) Qk] St. unfold mr_step in St. cbn [fst snd] in St. unfold mr_acts. cbn [snd].
    assert (Ob : forall m v, nth_error (cbuf s) m = Some v -> sent (T ++ E) (n + m) v) by (intros; apply sent_app; auto).
    assert (Ok : forall k u v, nth_error T k = Some (u, ALab (BOut v)) -> u = reader /\
      exists c i j, nth_error (T ++ E) i = Some (mapper j, ALab (BSend j v)) /\ kth is_send (T ++ E) c i /\ kth is_out (T ++ E) c k /\ hb (T ++ E) i k).
    { intros k u v H. destruct (Qk _ _ _ H) as (Hu & c & i & j & A & B & C & D). split; auto. exists c, i, j.
      split; [now apply nth_app_l|]. split; [now apply kth_app|]. split; [now apply kth_app|now apply hb_app]. }
    destruct St; cbn [cbuf] in *; (constructor; cbn [cbuf]; [|try solve [intros ? ? ? Hn; newev Hn; eauto]]).
    all: try solve [exists n; split; [silent|]; split; [silent|]; split; [silent|]; split; [silent|auto]].
    + exists n. split; [silent|]. split; [silent|]. rewrite app_length. cbn [length].
      replace (n + (length b + 1)) with (S (n + length b)) by lia. split; [rewrite two; apply c_yes; [silent|now exists w]|].
      split; [rewrite two; apply c_no; [apply c_yes; [auto|now exists (length l1), v]|intros (? & ? & G9); discriminate]|].
      intros m' y Hm. destruct (nth_snoc' _ _ _ _ Hm) as [Hm'|[-> ->]]; [auto|]. now apply sent_put.
    + cbn [length] in *. exists (S n). rewrite two. split; [apply c_no; [apply c_yes; [auto|reflexivity]|intros G9; discriminate]|].
      split; [apply c_yes; [silent|now exists v]|]. replace (S n + length b) with (n + S (length b)) by lia. split; [silent|]. split; [silent|].
      intros m' y Hm. replace (S n + m') with (n + S m') by lia. rewrite <- two. now apply Ob.
    + intros k u y Hn. newev Hn; [eauto|]. assert (k = S (length T)) as -> by lia. split; auto.
      specialize (Qb 0 y eq_refl). rewrite Nat.add_0_r in Qb. destruct (sent_get _ _ _ reader Qb Qg) as (i9 & j9 & A & B & C). exists n, i9, j9. rewrite two.
      split; [now do 2 apply nth_app_l|]. split; [now do 2 apply kth_app|].
      rewrite (len_one T (reader, AGet MCol)).
      split; [apply kth_last; [silent|now exists y]|]. apply seen_next, hb_seen, C.
Qed.

(** ** As long as ctx has not ended, it has not ended in the trace *)
Lemma early : forall xs tr T s, runs xs tr T s -> can s = false -> forall i u, nth_error T i <> Some (u, ALab BCancel).
Proof.
  intros xs. apply (traced_ind_inv _ _ _ (fun _ T s => can s = false -> forall i u, nth_error T i <> Some (u, ALab BCancel))).
  - intros s -> _ [|i]; discriminate.
  - intros tr T s [l E] s' _ H1 St. unfold mr_step in St. cbn [fst snd] in St. unfold mr_acts. cbn [snd].
    destruct St; cbn [can] in *; try discriminate; intros C9 i0 u0 Hi; newev Hi; eapply H1; eauto.
Qed.
End P.

(** ** One slot *)
Section One.
Context {X V : Type}.
Variable f : X -> mprog V.
Notation ev := (SyncSpec.ev unit mobject (mseen X V)).
Notation runs xs := (traced (fun s => s = minit xs) (mr_step f 1) mr_acts).
Lemma two' : forall T (a b : ev), T ++ [a; b] = (T ++ [a]) ++ [b]. Proof. exact two. Qed.
Lemma three' : forall T (a b c : ev), T ++ [a; b; c] = ((T ++ [a]) ++ [b]) ++ [c]. Proof. exact three. Qed.
Record K1 (xs : list X) (T : list ev) (s : mr X V) : Prop := {
  k_end : exists n, counts (gets MSlots) T n /\ counts (puts MSlots) T (n + slots s) /\
    forall j t, nth_error (tasks s) j = Some t -> op t = OEnd -> exists i, over T i j (tx t) /\ lastop MSlots T (slots s) n i;
  k_new : forall j t, nth_error (tasks s) j = Some t -> op t = ONew -> forall j' y, j' < j -> nth_error xs j' = Some y -> exists i, over T i j' y /\ past T (AGo (runner j)) i;
  k_go : forall j t, nth_error (tasks s) j = Some t -> ip t = IGo -> forall j' y, j' < j -> nth_error xs j' = Some y -> exists i, ended T i j' y /\ past T (AGo (mapper j)) i;
  k_call : forall k u j x, nth_error T k = Some (u, ALab (BCall j x)) -> forall j' y, j' < j -> nth_error xs j' = Some y -> exists i, ended T i j' y /\ hb T i k
}.
Ltac newev Hn := let Hl := fresh "Hl" in let m := fresh "m" in let Em := fresh "Em" in
  match type of Hn with nth_error (?T ++ ?E) ?k = _ =>
    destruct (Nat.lt_ge_cases k (length T)) as [Hl|Hl];
    [rewrite nth_error_app1 in Hn by exact Hl
    |rewrite nth_error_app2 in Hn by exact Hl; remember (k - length T) as m eqn:Em; destruct m as [|[|[|[|m]]]]; cbn [nth_error] in Hn; try discriminate; try (destruct m; discriminate); injection Hn; clear Hn; intros; subst]
  end.
Ltac silent := rewrite ?app_nil_r, ?three', ?two'; repeat (apply c_no; [|first [intros G9; discriminate G9|intros [? G9]; discriminate G9|intros (? & ? & G9); discriminate G9]]); auto.

Lemma held_end : forall l j (t : task X V), sumt held l = 0 -> nth_error l j = Some t -> op t = OEnd.
Proof.
  intros l j t H Hn. destruct (nth_error_split _ _ Hn) as (l1 & l2 & -> & _). destruct (op t) eqn:E; auto; exfalso; pose proof (held_in l1 t l2) as K; unfold held in K at 1; rewrite E in K; specialize (K eq_refl); lia.
Qed.
Lemma K1_all : forall xs tr T s, runs xs tr T s -> K1 xs T s.
Proof.
  intros xs. apply (traced_ind_inv _ _ _ (fun _ T s => K1 xs T s)).
  - intros s ->. constructor; cbn; try (intros [|k]; discriminate). exists 0. split; [constructor|]. split; [constructor|intros [|j]; discriminate].
  - intros tr T s [l E] s' R [(n & Kg & Kp & Ke) Kn Kz Kc] St. unfold mr_step in St. cbn [fst snd] in St. unfold mr_acts. cbn [snd].
    pose proof (inv_runs _ _ _ _ _ _ R) as I. pose proof (g_tk _ _ _ (G_all _ _ _ _ _ _ R)) as Gt.
    assert (Oe : forall j t, nth_error (tasks s) j = Some t -> op t = OEnd -> exists i, over (T ++ E) i j (tx t) /\ lastop MSlots (T ++ E) (slots s) n i).
    { intros j t Hn Ho. destruct (Ke j t Hn Ho) as (i & A & B). exists i. split; [now apply over_app|now apply lastop_app]. }
    assert (On : forall j t, nth_error (tasks s) j = Some t -> op t = ONew -> forall j' y, j' < j -> nth_error xs j' = Some y -> exists i, over (T ++ E) i j' y /\ past (T ++ E) (AGo (runner j)) i).
    { intros j t Hn Ho j' y L Hx. destruct (Kn j t Hn Ho j' y L Hx) as (i & A & B). exists i. split; [now apply over_app|now apply past_app]. }
    assert (Ok : forall k u j x, nth_error T k = Some (u, ALab (BCall j x)) -> forall j' y, j' < j -> nth_error xs j' = Some y -> exists i, ended (T ++ E) i j' y /\ hb (T ++ E) i k).
    { intros k u j x Hn j' y L Hx. destruct (Kc k u j x Hn j' y L Hx) as (i & A & B). exists i. split; [now apply ended_app|now apply hb_app]. }
    assert (Oz : forall j t, nth_error (tasks s) j = Some t -> ip t = IGo -> forall j' y, j' < j -> nth_error xs j' = Some y -> exists i, ended (T ++ E) i j' y /\ past (T ++ E) (AGo (mapper j)) i).
    { intros j t Hn Ho j' y L Hx. destruct (Kz j t Hn Ho j' y L Hx) as (i & A & B). exists i. split; [now apply ended_app|now apply past_app]. }
    destruct St; cbn [tasks slots] in *; constructor; cbn [tasks slots]; auto.
    all: try solve [intros ? ? ? ? Hn; newev Hn; eauto].
    all: try solve [exists n; split; [silent|]; split; [silent|auto]].
    all: try solve [refine (rep_all _ _ _ _ _ On _); cbn [op]; try discriminate; exact (On _ _ (nth_mid l1 _ l2))].
    all: try solve [refine (rep_all _ _ _ _ _ Oz _); cbn [ip]; try discriminate; exact (Oz _ _ (nth_mid l1 _ l2))].
    all: try solve [exists n; split; [silent|]; split; [silent|]; refine (rep_all _ _ _ _ _ Oe _); cbn [op]; try discriminate; exact (Oe _ _ (nth_mid l1 _ l2))].
    + assert (s = 0) as -> by lia. rewrite Nat.add_0_r in Kp. exists n. rewrite two', Nat.add_1_r. split; [silent|]. split; [apply c_no; [apply c_yes; [auto|now exists 1]|intros [? Q]; discriminate Q]|].
      intros j t Hn Ho. destruct (nth_snoc' _ _ _ _ Hn) as [Hn'|[-> ->]]; [|discriminate]. destruct (Ke j t Hn' Ho) as (i & A & B). exists i. split; [now do 2 apply over_app|].
      apply lastop_app. exists (length T). split; [now apply put_last|]. right. now apply lastop_put with n.
    + assert (s = 0) as -> by lia. rewrite Nat.add_0_r in Kp. intros j t Hn Ho j' y L Hx. destruct (nth_snoc' _ _ _ _ Hn) as [Hn'|[-> ->]]; [eauto|].
      pose proof (i_xs _ _ _ _ _ I) as Ex. cbn [tasks mp gen mhand] in Ex. rewrite Ex, nth_error_app1 in Hx by (now rewrite map_length). rewrite nth_error_map in Hx.
      destruct (nth_error l j') as [t'|] eqn:Hj; [|discriminate]. injection Hx as <-.
      destruct (i_slots _ _ _ _ _ I) as [S9 _]. cbn [slots tasks] in S9. pose proof (held_end _ _ _ (eq_sym S9) Hj) as He.
      destruct (Ke j' t' Hj He) as (i & A & B). exists i. split; [now apply over_app|]. rewrite two'. apply seen_past. apply hb_seen. now apply lastop_put with n.
    + intros j t Hn Ho. destruct (nth_snoc' _ _ _ _ Hn) as [Hn'|[-> ->]]; [eauto|discriminate].
    + refine (rep_all _ _ _ _ _ Oz _). intros _ j' y L Hx. destruct (Kn _ _ (nth_mid l1 _ l2) eq_refl j' y L Hx) as (i0 & [A|A] & P); [|elim (early _ _ _ _ _ _ R eq_refl _ _ A)]. exists i0. split; [now apply ended_app|].
      now apply past_go with (j := runner (length l1)).
    + intros k u j y Hn j' z L Hx. newev Hn; [eauto|]. destruct (Kz _ _ (nth_mid l1 _ l2) eq_refl j' z L Hx) as (i0 & A & P). exists i0. split; [now apply ended_app|].
      replace k with (length T) by lia. eapply past_next; [exact P|constructor].
    + assert (s = 0) as -> by (destruct (i_slots _ _ _ _ _ I) as [_ L9]; cbn in L9; lia). exists (S n). rewrite Nat.add_0_r. rewrite Nat.add_1_r in Kp.
      split; [apply c_yes; [auto|reflexivity]|]. split; [silent|]. pose proof (get_last MSlots T n (runner (length l1)) Kg) as KG.
      refine (rep_all (fun j t => op t = OEnd -> exists i0, over (T ++ [(runner (length l1), AGet MSlots)]) i0 j (tx t) /\ lastop MSlots (T ++ [(runner (length l1), AGet MSlots)]) 0 (S n) i0) l1 (MapRedModel.T x (ORel false) i) _ l2 _ _).
      * intros j t Hn Ho. destruct (Ke j t Hn Ho) as (i0 & A & B). exists i0. split; [now apply over_app|]. exists n, (length T). split; [auto|]. split; [auto|]. right. now apply lastop_get with n.
      * intros _. cbn [tx]. destruct (t_rel _ _ _ (Gt _ _ (nth_mid l1 _ l2)) (or_introl (ex_intro _ false eq_refl))) as (i0 & A & _ & B). cbn [tx] in A. exists i0. split; [now apply over_app|].
        exists n, (length T). split; [auto|]. split; [auto|]. right. now apply seen_next.
    + assert (s = 0) as -> by (destruct (i_slots _ _ _ _ _ I) as [_ L9]; cbn in L9; lia). exists (S n). rewrite Nat.add_0_r. rewrite Nat.add_1_r in Kp.
      split; [apply c_yes; [auto|reflexivity]|]. split; [silent|]. pose proof (get_last MSlots T n (runner (length l1)) Kg) as KG.
      refine (rep_all (fun j t => op t = OEnd -> exists i0, over (T ++ [(runner (length l1), AGet MSlots)]) i0 j (tx t) /\ lastop MSlots (T ++ [(runner (length l1), AGet MSlots)]) 0 (S n) i0) l1 (MapRedModel.T x (ORel true) i) _ l2 _ _).
      * intros j t Hn Ho. destruct (Ke j t Hn Ho) as (i0 & A & B). exists i0. split; [now apply over_app|]. exists n, (length T). split; [auto|]. split; [auto|]. right. now apply lastop_get with n.
      * intros _. cbn [tx]. destruct (t_rel _ _ _ (Gt _ _ (nth_mid l1 _ l2)) (or_introl (ex_intro _ true eq_refl))) as (i0 & A & _ & B). cbn [tx] in A. exists i0. split; [now apply over_app|].
        exists n, (length T). split; [auto|]. split; [auto|]. right. now apply seen_next.
Qed.
End One.
