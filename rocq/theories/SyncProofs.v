(** * Happens-before along a growing trace, and lock discipline *)
From Coq Require Import List Arith Bool Lia.
From Verif Require Import Trans SyncSpec.
Import ListNotations.

Section SyncProofs.
Context {L M B : Type}.
Notation ev := (ev L M B).
Notation act := (act L M B).
Implicit Types T : list ev.

Lemma nth_app_l : forall T l i x, nth_error T i = Some x -> nth_error (T ++ l) i = Some x.
Proof. intros T l i x Hn. rewrite nth_error_app1; auto. apply nth_error_Some. now rewrite Hn. Qed.
Lemma nth_lt : forall T i x, nth_error T i = Some x -> i < length T.
Proof. intros T i x Hn. apply nth_error_Some. now rewrite Hn. Qed.
Lemma nth_last : forall T x, nth_error (T ++ [x]) (length T) = Some x.
Proof. intros. rewrite nth_error_app2 by lia. now rewrite Nat.sub_diag. Qed.
Lemma nth_snoc : forall T x i y, nth_error (T ++ [x]) i = Some y -> nth_error T i = Some y \/ i = length T /\ y = x.
Proof.
  intros T x i y Hn. destruct (Nat.lt_ge_cases i (length T)) as [Hl|Hg].
  - left. now rewrite nth_error_app1 in Hn.
  - right. assert (i < length (T ++ [x])) by (apply nth_error_Some; now rewrite Hn). rewrite app_length in H. cbn in H.
    assert (i = length T) by lia. subst. rewrite nth_last in Hn. now inversion Hn.
Qed.

Lemma kth_lt : forall P T k i, kth P T k i -> i < length T.
Proof. intros P T k i ((t & a & Hn & _) & _). eapply nth_lt; eauto. Qed.
Lemma kth_app : forall P T l k i, kth P T k i -> kth P (T ++ l) k i.
Proof.
  intros P T l k i Hk. pose proof (kth_lt _ _ _ _ Hk) as Hl. destruct Hk as ((t & a & Hn & Ha) & Hc). split; [exists t, a; auto using nth_app_l|].
  rewrite firstn_app. replace (i - length T) with 0 by lia. cbn. now rewrite app_nil_r.
Qed.
Lemma kth_new : forall P T l k i, kth P (T ++ l) k i -> i < length T -> kth P T k i.
Proof.
  intros P T l k i ((t & a & Hn & Ha) & Hc) Hl. split; [exists t, a; rewrite nth_error_app1 in Hn; auto|].
  rewrite firstn_app in Hc. replace (i - length T) with 0 in Hc by lia. cbn in Hc. now rewrite app_nil_r in Hc.
Qed.
Lemma kth_last : forall (P : act -> Prop) T t a k, counts P T k -> P a -> kth P (T ++ [(t, a)]) k (length T).
Proof.
  intros P T t a k Hc Ha. split; [exists t, a; auto using nth_last|]. rewrite firstn_app, Nat.sub_diag, firstn_all. cbn. now rewrite app_nil_r.
Qed.
Lemma counts_fun : forall P T n m, counts P T n -> counts P T m -> n = m.
Proof.
  intros P T n m Hn. revert m. induction Hn as [|T t a n Hn IH Ha|T t a n Hn IH Ha]; intros m Hm; inversion Hm as [Hz|T' t' a' m' Hm' Ha' Hz|T' t' a' m' Hm' Ha' Hz]; subst; auto;
    try (exfalso; now destruct T); try (exfalso; now destruct T'); apply app_inj_tail in Hz; destruct Hz as [-> Hz]; inversion Hz; subst; auto; contradiction.
Qed.

Lemma hb_lt : forall T i j, hb T i j -> i < j /\ j < length T.
Proof. induction 1; try (split; [assumption|solve [eapply nth_lt; eassumption|eapply kth_lt; eassumption]]). lia. Qed.
Lemma hb_app : forall T l i j, hb T i j -> hb (T ++ l) i j.
Proof.
  induction 1.
  - eapply hb_po; eauto using nth_app_l.
  - eapply hb_sync; eauto using nth_app_l.
  - eapply hb_at; eauto using nth_app_l. intros k w c Hk Hn. apply (H6 k w c Hk). rewrite nth_error_app1 in Hn; auto.
    apply nth_lt in H1. lia.
  - eapply hb_chan; eauto using kth_app.
  - eapply hb_room; eauto using kth_app, nth_app_l.
  - eapply hb_tr; eauto.
Qed.

(** i happens before whatever t does next *)
Definition seen T (i t : nat) : Prop := exists j a, nth_error T j = Some (t, a) /\ (i = j \/ hb T i j).
(** i is, or happens before, an event that does [a] *)
Definition past T (a : act) (i : nat) : Prop := exists j u, nth_error T j = Some (u, a) /\ (i = j \/ hb T i j).
(** i happens before the last write to x, which is atomic *)
Definition seenX T (x : L) (i : nat) : Prop :=
  exists j u a, nth_error T j = Some (u, a) /\ atomic a /\ writes a x /\ (i = j \/ hb T i j) /\
    forall k w c, j < k -> nth_error T k = Some (w, c) -> ~ writes c x.

Lemma seen_app : forall T l i t, seen T i t -> seen (T ++ l) i t.
Proof. intros T l i t (j & a & Hn & Ho). exists j, a. split; [now apply nth_app_l|]. destruct Ho; auto using hb_app. Qed.
Lemma past_app : forall T l a i, past T a i -> past (T ++ l) a i.
Proof. intros T l b i (j & a & Hn & Ho). exists j, a. split; [now apply nth_app_l|]. destruct Ho; auto using hb_app. Qed.
Lemma seenX_snoc : forall T x i t a, seenX T x i -> ~ writes a x -> seenX (T ++ [(t, a)]) x i.
Proof.
  intros T x i t a (j & u & b & Hn & Ha & Hw & Ho & Hl) Hnw. exists j, u, b. repeat (split; auto); auto using nth_app_l.
  - destruct Ho; auto using hb_app.
  - intros k w c Hk Hc. destruct (nth_snoc _ _ _ _ Hc) as [Hc'|[-> Hc']]; [eapply Hl; eauto|]. now inversion Hc'; subst.
Qed.

Lemma seen_next : forall T i t a, seen T i t -> hb (T ++ [(t, a)]) i (length T).
Proof.
  intros T i t a (j & b & Hn & Ho).
  assert (hb (T ++ [(t, a)]) j (length T)) by (eapply hb_po; [eapply nth_lt; eauto|eapply nth_app_l; eauto|apply nth_last]).
  destruct Ho as [->|Ho]; auto. eapply hb_tr; [apply hb_app; eauto|auto].
Qed.
Lemma seen_lt : forall T i t, seen T i t -> i < length T.
Proof. intros T i t (j & b & Hn & [->|Ho]); [eapply nth_lt; eauto|]. apply hb_lt in Ho. lia. Qed.
Lemma seen_here : forall T t a, seen (T ++ [(t, a)]) (length T) t.
Proof. intros. exists (length T), a. split; auto. apply nth_last. Qed.
Lemma seen_self : forall T i t a, nth_error T i = Some (t, a) -> seen T i t.
Proof. intros. exists i, a. auto. Qed.
Lemma seen_trans : forall T i j t, hb T i j -> seen T j t -> seen T i t.
Proof. intros T i j t Hh (k & a & Hn & [->|Ho]); exists k, a; split; auto. right. eapply hb_tr; eauto. Qed.
Lemma hb_seen : forall T i t a, hb (T ++ [(t, a)]) i (length T) -> seen (T ++ [(t, a)]) i t.
Proof. intros. eapply seen_trans; eauto. apply seen_here. Qed.

Lemma past_next : forall T a i t b, past T a i -> pairs a t b -> hb (T ++ [(t, b)]) i (length T).
Proof.
  intros T a i t b (j & u & Hn & Ho) Hp.
  assert (hb (T ++ [(t, b)]) j (length T)) by (eapply hb_sync; [eapply nth_lt; eauto|eapply nth_app_l; eauto|apply nth_last|auto]).
  destruct Ho as [->|Ho]; auto. eapply hb_tr; [apply hb_app; eauto|auto].
Qed.
Lemma past_seen : forall T a i t b, past T a i -> pairs a t b -> seen (T ++ [(t, b)]) i t.
Proof. intros. eapply hb_seen, past_next; eauto. Qed.
Lemma seen_past : forall T i t a, seen T i t -> past (T ++ [(t, a)]) a i.
Proof. intros. exists (length T), t. split; [apply nth_last|]. right. now apply seen_next. Qed.
Lemma seenX_next : forall T x i t a, seenX T x i -> atomic a -> reads a x -> hb (T ++ [(t, a)]) i (length T).
Proof.
  intros T x i t a (j & u & b & Hn & Ha & Hw & Ho & Hl) Hat Hr.
  assert (hb (T ++ [(t, a)]) j (length T)).
  { eapply hb_at with (x := x); [eapply nth_lt; eauto|eapply nth_app_l; eauto|apply nth_last|auto..].
    intros k w c [Hk1 Hk2] Hc. rewrite nth_error_app1 in Hc by auto. eapply Hl; eauto. }
  destruct Ho as [->|Ho]; auto. eapply hb_tr; [apply hb_app; eauto|auto].
Qed.
Lemma seen_write : forall T i t a x, seen T i t -> atomic a -> writes a x -> seenX (T ++ [(t, a)]) x i.
Proof.
  intros T i t a x Hs Ha Hw. exists (length T), t, a. repeat (split; auto); [apply nth_last|right; now apply seen_next|].
  intros k w c Hk Hc. apply nth_lt in Hc. rewrite app_length in Hc. cbn in Hc. lia.
Qed.

Lemma race_free_nil : race_free (L := L) (M := M) (B := B) [].
Proof. intros x [|?] j t u a b Hl Hi; discriminate. Qed.
(** A new event by t races with nothing if every event it conflicts with happens before it. *)
Lemma race_free_on_snoc : forall T x t a, race_free_on T x ->
  (forall i u b, nth_error T i = Some (u, b) -> u <> t -> touches b x -> touches a x -> (writes b x \/ writes a x) -> ~ (atomic b /\ atomic a) ->
     seen T i t) -> race_free_on (T ++ [(t, a)]) x.
Proof.
  intros T x t a Hr Hn i j u w b c Hl Hi Hj Hd Hb Hc Hw Ha.
  destruct (nth_snoc _ _ _ _ Hj) as [Hj'|[-> E]].
  - apply hb_app. assert (i < length T) by (apply nth_lt in Hj'; lia). rewrite nth_error_app1 in Hi by auto. eapply Hr; eauto.
  - inversion E; subst. rewrite nth_error_app1 in Hi by auto. eapply seen_next, Hn; eauto.
Qed.
Lemma race_free_snoc : forall T t a, race_free T ->
  (forall i u b x, nth_error T i = Some (u, b) -> u <> t -> touches b x -> touches a x -> (writes b x \/ writes a x) -> ~ (atomic b /\ atomic a) ->
     seen T i t) -> race_free (T ++ [(t, a)]).
Proof. intros T t a Hr Hn x. apply race_free_on_snoc; auto. eauto. Qed.
Definition quiet (a : act) : Prop := forall x, ~ touches a x.
Lemma race_free_quiet : forall T t a, race_free T -> quiet a -> race_free (T ++ [(t, a)]).
Proof. intros T t a Hr Hq. apply race_free_snoc; auto. intros i u b x _ _ _ Ht. now apply Hq in Ht. Qed.

(** ** One sync.RWMutex [m] that guards every access

    [w] is the goroutine that holds it for writing, [r] are those that hold it for reading. *)
Section Lock.
Variable m : M.

Record guarded T (w : option nat) (r : nat -> bool) : Prop := {
  g_free : race_free T;
  g_excl : forall t u, w = Some t -> r u = false;
  (* a write is by the one who holds the lock, or an Unlock came after it; all holders have seen it *)
  g_wr : forall i t a x, nth_error T i = Some (t, a) -> writes a x ->
      (w = Some t \/ past T (AUnlk m) i) /\ (forall u, w = Some u \/ r u = true -> seen T i u);
  (* a read is by a holder, or an Unlock or RUnlock came after it; a writer has seen it *)
  g_rd : forall i t a x, nth_error T i = Some (t, a) -> reads a x ->
      (w = Some t \/ r t = true \/ past T (AUnlk m) i \/ past T (ARUnlk m) i) /\ (forall u, w = Some u -> seen T i u);
  (* what came before an Unlock has been seen by all holders *)
  g_un : forall i u, past T (AUnlk m) i -> w = Some u \/ r u = true -> seen T i u;
}.

Ltac old Hn := let H' := fresh in
  match type of Hn with nth_error (_ ++ _) _ = _ => destruct (nth_snoc _ _ _ _ Hn) as [H'|[-> H']]; [clear Hn; rename H' into Hn|injection H' as -> ->; clear Hn] end.

Lemma guarded_nil : forall w r, (forall t u, w = Some t -> r u = false) -> guarded [] w r.
Proof.
  intros w r He. constructor; auto using race_free_nil; try (intros [|?] ? ? ? Hn; discriminate).
  intros i u (j & t & Hn & _). destruct j; discriminate.
Qed.
Lemma guarded_ext : forall T w r r', (forall t, r t = r' t) -> guarded T w r -> guarded T w r'.
Proof.
  intros T w r r' Hr [H1 H2 H3 H4 H5]. constructor; auto.
  - intros. rewrite <- Hr. eauto.
  - intros i t a x Hn Hw. destruct (H3 _ _ _ _ Hn Hw) as [Ha Hb]. split; auto. intros u [Hu|Hu]; apply Hb; auto. right. now rewrite Hr.
  - intros i t a x Hn Hw. destruct (H4 _ _ _ _ Hn Hw) as [Ha Hb]. split; auto. rewrite <- Hr. auto.
  - intros i u Hp [Hu|Hu]; apply H5; auto. right. now rewrite Hr.
Qed.

(** an event that is not an access and not an Unlock *)
Lemma past_new : forall T a i t b, b <> a -> past (T ++ [(t, b)]) a i -> past T a i.
Proof.
  intros T a i t b Hd (j & u & Hn & Ho). destruct (nth_snoc _ _ _ _ Hn) as [Hn'|[-> E]]; [|congruence].
  exists j, u. split; auto. destruct Ho as [->|Ho]; auto. right.
  assert (Hj : j < length T) by (eapply nth_lt; eauto). clear - Ho Hj.
  remember (T ++ [(t, b)]) as T'. induction Ho; subst.
  - rewrite nth_error_app1 in H0, H1 by lia. eapply hb_po; eauto.
  - rewrite nth_error_app1 in H0, H1 by lia. eapply hb_sync; eauto.
  - rewrite nth_error_app1 in H0, H1 by lia. eapply hb_at; eauto. intros k w c Hk Hn. apply (H6 k w c Hk). now apply nth_app_l.
  - apply kth_new in H0, H1; try lia. eapply hb_chan; eauto.
  - apply kth_new in H0, H2; try lia. rewrite nth_error_app1 in H1 by lia. eapply hb_room; eauto.
  - assert (j < length T) by (apply hb_lt in Ho2; lia). eapply hb_tr; eauto.
Qed.
Lemma guarded_quiet : forall T w r t a, quiet a -> a <> AUnlk m -> guarded T w r -> guarded (T ++ [(t, a)]) w r.
Proof.
  intros T w r t a Hq Hu [H1 H2 H3 H4 H5]. constructor; auto.
  - now apply race_free_quiet.
  - intros i u b x Hn Hw. old Hn; [|exfalso; eapply Hq; right; eauto]. destruct (H3 _ _ _ _ Hn Hw) as [Ha Hb].
    split; [intuition auto using past_app|intros; apply seen_app; auto].
  - intros i u b x Hn Hw. old Hn; [|exfalso; eapply Hq; left; eauto]. destruct (H4 _ _ _ _ Hn Hw) as [Ha Hb].
    split; [intuition auto using past_app|intros; apply seen_app; auto].
  - intros i u Hp Hh. apply seen_app, H5; auto. eapply past_new; eauto.
Qed.
Lemma guarded_read : forall T w r t x, w = Some t \/ r t = true -> guarded T w r -> guarded (T ++ [(t, ARd x)]) w r.
Proof.
  intros T w r t x Hh [H1 H2 H3 H4 H5]. constructor; auto.
  - apply race_free_snoc; auto. intros i u b y Hn Hd Hb Ha Hw _. destruct Hw as [Hw|[Hw|[Hw|Hw]]]; try discriminate.
    destruct (H3 _ _ _ _ Hn Hw) as [_ Hs]. auto.
  - intros i u b y Hn Hw. old Hn; [|destruct Hw as [Hw|[Hw|Hw]]; discriminate]. destruct (H3 _ _ _ _ Hn Hw) as [Ha Hb].
    split; [intuition auto using past_app|intros; apply seen_app; auto].
  - intros i u b y Hn Hw. old Hn.
    + destruct (H4 _ _ _ _ Hn Hw) as [Ha Hb]. split; [intuition auto using past_app|intros; apply seen_app; auto].
    + split; [tauto|]. intros u0 Hu. destruct Hh as [Hh|Hh]; [|rewrite (H2 u0 t Hu) in Hh; discriminate].
      assert (u0 = t) by congruence. subst. apply seen_here.
  - intros i u Hp Hu. apply seen_app, H5; auto. eapply past_new; [|eauto]; discriminate.
Qed.
Lemma guarded_write : forall T w r t x, w = Some t -> guarded T w r -> guarded (T ++ [(t, AWr x)]) w r.
Proof.
  intros T w r t x Hh [H1 H2 H3 H4 H5]. constructor; auto.
  - apply race_free_snoc; auto. intros i u b y Hn Hd Hb Ha _ _. destruct Hb as [Hb|Hb].
    + destruct (H4 _ _ _ _ Hn Hb) as [_ Hs]. auto.
    + destruct (H3 _ _ _ _ Hn Hb) as [_ Hs]. auto.
  - intros i u b y Hn Hw. old Hn.
    + destruct (H3 _ _ _ _ Hn Hw) as [Ha Hb]. split; [intuition auto using past_app|intros; apply seen_app; auto].
    + split; [tauto|]. intros u0 [Hu|Hu]; [|rewrite (H2 t u0 Hh) in Hu; discriminate].
      assert (u0 = t) by congruence. subst. apply seen_here.
  - intros i u b y Hn Hw. old Hn; [|destruct Hw as [Hw|[Hw|Hw]]; discriminate]. destruct (H4 _ _ _ _ Hn Hw) as [Ha Hb].
    split; [intuition auto using past_app|intros; apply seen_app; auto].
  - intros i u Hp Hu. apply seen_app, H5; auto. eapply past_new; [|eauto]; discriminate.
Qed.
Lemma q_lock : quiet (ALock m). Proof. intros x [[H|[H|H]]|[H|[H|H]]]; discriminate. Qed.
Lemma q_unlock : quiet (AUnlk m). Proof. intros x [[H|[H|H]]|[H|[H|H]]]; discriminate. Qed.
Lemma q_rlock : quiet (ARLock m). Proof. intros x [[H|[H|H]]|[H|[H|H]]]; discriminate. Qed.
Lemma q_runlock : quiet (ARUnlk m). Proof. intros x [[H|[H|H]]|[H|[H|H]]]; discriminate. Qed.
Lemma q_lab : forall b, quiet (ALab b). Proof. intros b x [[H|[H|H]]|[H|[H|H]]]; discriminate. Qed.

Lemma guarded_lock : forall T r t, (forall u, r u = false) -> guarded T None r -> guarded (T ++ [(t, ALock m)]) (Some t) r.
Proof.
  intros T r t Hr [H1 H2 H3 H4 H5]. constructor; auto.
  - apply race_free_quiet; auto using q_lock.
  - intros i u b x Hn Hw. old Hn; [|exfalso; eapply q_lock; right; eauto]. destruct (H3 _ _ _ _ Hn Hw) as [[Ha|Ha] Hb]; [discriminate|].
    split; [auto using past_app|]. intros u0 [Hu|Hu]; [|rewrite Hr in Hu; discriminate]. inversion Hu; subst.
    eapply past_seen; eauto. constructor.
  - intros i u b x Hn Hw. old Hn; [|exfalso; eapply q_lock; left; eauto]. destruct (H4 _ _ _ _ Hn Hw) as [Ha Hb].
    destruct Ha as [Ha|[Ha|Ha]]; [discriminate|rewrite Hr in Ha; discriminate|].
    split; [right; right; destruct Ha; auto using past_app|]. intros u0 Hu. inversion Hu; subst.
    destruct Ha; eapply past_seen; eauto; constructor.
  - intros i u Hp [Hu|Hu]; [|rewrite Hr in Hu; discriminate]. inversion Hu; subst. apply past_new in Hp; [|discriminate].
    eapply past_seen; eauto. constructor.
Qed.
Lemma guarded_unlock : forall T r t, guarded T (Some t) r -> guarded (T ++ [(t, AUnlk m)]) None r.
Proof.
  intros T r t [H1 H2 H3 H4 H5].
  assert (Hr : forall u, r u = false) by (intros; eapply H2; eauto). constructor.
  - apply race_free_quiet; auto using q_unlock.
  - discriminate.
  - intros i u b x Hn Hw. old Hn; [|exfalso; eapply q_unlock; right; eauto]. destruct (H3 _ _ _ _ Hn Hw) as [Ha Hb].
    split; [right; apply seen_past, Hb; auto|]. intros u0 [Hu|Hu]; [discriminate|rewrite Hr in Hu; discriminate].
  - intros i u b x Hn Hw. old Hn; [|exfalso; eapply q_unlock; left; eauto]. destruct (H4 _ _ _ _ Hn Hw) as [Ha Hb].
    split; [right; right; left; apply seen_past, Hb; auto|]. discriminate.
  - intros i u _ [Hu|Hu]; [discriminate|rewrite Hr in Hu; discriminate].
Qed.
Lemma guarded_rlock : forall T r t, guarded T None r -> guarded (T ++ [(t, ARLock m)]) None (upd r t true).
Proof.
  intros T r t [H1 H2 H3 H4 H5]. constructor.
  - apply race_free_quiet; auto using q_rlock.
  - discriminate.
  - intros i u b x Hn Hw. old Hn; [|exfalso; eapply q_rlock; right; eauto]. destruct (H3 _ _ _ _ Hn Hw) as [[Ha|Ha] Hb]; [discriminate|].
    split; [auto using past_app|]. intros u0 [Hu|Hu]; [discriminate|]. unfold upd in Hu. destruct (Nat.eqb_spec t u0) as [Ee|Hd]; [subst u0|].
    + eapply past_seen; eauto. constructor.
    + apply seen_app; auto.
  - intros i u b x Hn Hw. old Hn; [|exfalso; eapply q_rlock; left; eauto]. destruct (H4 _ _ _ _ Hn Hw) as [Ha Hb].
    split; [|discriminate]. destruct Ha as [Ha|[Ha|[Ha|Ha]]]; auto using past_app. right. left. unfold upd. now destruct (Nat.eqb t u).
  - intros i u Hp [Hu|Hu]; [discriminate|]. apply past_new in Hp; [|discriminate]. unfold upd in Hu. destruct (Nat.eqb_spec t u) as [Ee|Hd]; [subst u|].
    + eapply past_seen; eauto. constructor.
    + apply seen_app; auto.
Qed.
Lemma guarded_runlock : forall T w r t, guarded T w r -> guarded (T ++ [(t, ARUnlk m)]) w (upd r t false).
Proof.
  intros T w r t [H1 H2 H3 H4 H5].
  assert (Hl : forall u, upd r t false u = true -> r u = true) by (intros u; unfold upd; destruct (Nat.eqb t u); auto; discriminate).
  constructor.
  - apply race_free_quiet; auto using q_runlock.
  - intros u v Hu. unfold upd. destruct (Nat.eqb t v); eauto.
  - intros i u b x Hn Hw. old Hn; [|exfalso; eapply q_runlock; right; eauto]. destruct (H3 _ _ _ _ Hn Hw) as [Ha Hb].
    split; [intuition auto using past_app|]. intros u0 [Hu|Hu]; apply seen_app; auto.
  - intros i u b x Hn Hw. old Hn; [|exfalso; eapply q_runlock; left; eauto]. destruct (H4 _ _ _ _ Hn Hw) as [Ha Hb].
    split; [|intros; apply seen_app; auto]. destruct Ha as [Ha|[Ha|[Ha|Ha]]]; auto using past_app.
    unfold upd. destruct (Nat.eqb_spec t u) as [Ee|Hd]; [subst u|]; auto. right. right. right. apply seen_past. eapply seen_self; eauto.
  - intros i u Hp Hu. apply past_new in Hp; [|discriminate]. apply seen_app, H5; auto. destruct Hu; auto.
Qed.
End Lock.

(** ** Traced runs *)
Context {S Lab : Type}.
Lemma traced_exec : forall init step acts (tr : list Lab) (T : list ev) (s : S), traced init step acts tr T s -> exec init step tr s.
Proof.
  intros init step acts tr T s H. induction H; [now apply exec_nil|]. eapply exec_snoc; eauto.
Qed.
Lemma traced_ind_inv : forall (init : S -> Prop) (step : S -> Lab -> S -> Prop) (acts : S -> Lab -> list ev) (P : list Lab -> list ev -> S -> Prop),
  (forall s, init s -> P [] [] s) ->
  (forall tr T s l s', traced init step acts tr T s -> P tr T s -> step s l s' -> P (tr ++ [l]) (T ++ acts s l) s') ->
  forall tr T s, traced init step acts tr T s -> P tr T s.
Proof. intros init step acts P H0 H1 tr T s H. induction H; eauto. Qed.
(** Where a label stands in the trace, if every step ends with its label or has none. *)
Lemma label_at : forall (init : S -> Prop) step acts (lab : Lab -> B),
  (forall s l k t b, nth_error (acts s l) k = Some (t, ALab b) -> b = lab l /\ exists pre, acts s l = pre ++ [(t, ALab b)] /\ k = length pre) ->
  forall (tr : list Lab) (T : list ev) (s : S) j t b, traced init step acts tr T s -> nth_error T j = Some (t, ALab b) ->
  exists tr1 T1 s1 s2 l pre T2, traced init step acts tr1 T1 s1 /\ step s1 l s2 /\ b = lab l /\ acts s1 l = pre ++ [(t, ALab b)] /\
    (exists tr2, tr = tr1 ++ l :: tr2) /\ T = (T1 ++ pre) ++ (t, ALab b) :: T2 /\ j = length (T1 ++ pre).
Proof.
  intros init step acts lab Hlast tr T s j t b H. revert j. induction H as [|tr T s l s' H IH St]; intros j Hj; [destruct j; discriminate|].
  destruct (Nat.lt_ge_cases j (length T)) as [Hl|Hl].
  - rewrite nth_error_app1 in Hj by auto. destruct (IH j Hj) as (tr1 & T1 & s1 & s2 & l1 & pre & T2 & A & B1 & C & D & (tr2 & E) & F & G).
    exists tr1, T1, s1, s2, l1, pre, (T2 ++ acts s l). split; [auto|]. split; [auto|]. split; [auto|]. split; [auto|].
    split; [exists (tr2 ++ [l]); rewrite E, <- app_assoc; auto|]. split; [rewrite F, <- !app_assoc; auto|auto].
  - rewrite nth_error_app2 in Hj by auto. destruct (Hlast _ _ _ _ _ Hj) as (Hb & pre & Hp & Hk).
    exists tr, T, s, s', l, pre, []. split; [auto|]. split; [auto|]. split; [auto|]. split; [auto|]. split; [exists []; auto|].
    split; [rewrite Hp; now rewrite <- (app_assoc T)|]. transitivity (length T + (j - length T)); [lia|]. rewrite Hk. symmetry. apply app_length.
Qed.
Lemma seen_lab : forall (T : list ev) T2 i t a, seen T i t -> hb (T ++ (t, a) :: T2) i (length T).
Proof. intros T T2 i t a Hs. change ((t, a) :: T2) with ([(t, a)] ++ T2). rewrite app_assoc. now apply hb_app, seen_next. Qed.
End SyncProofs.
