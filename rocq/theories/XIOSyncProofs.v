(** * Proofs for C112 *)
From Coq Require Import ZArith List Bool Arith Lia.
From Verif Require Import GoBase Trans XIOModel XIOSpec XIOProps SyncSpec SyncProofs FeasSpec FeasProofs XIOSyncModel.
Import ListNotations.
Open Scope nat_scope.

Notation xruns owned := (traced x_init (x_step owned) x_acts).
Definition o0 : ost := OS (fun _ => Unmade) 0.

(** ** The runs are those of XIOModel *)
Lemma run_base : forall owned tr T s, xruns owned tr T s ->
  (exists r0, rinit r0 /\ steps rstep r0 (rplain tr) (xr s)) /\ (exists w0, winit w0 /\ steps wstep w0 (wplain tr) (xw s)) /\ steps (owns owned) o0 T (xo s).
Proof.
  intros owned. apply (traced_ind_inv _ _ _ (fun tr T s => (exists r0, rinit r0 /\ steps rstep r0 (rplain tr) (xr s)) /\ (exists w0, winit w0 /\ steps wstep w0 (wplain tr) (xw s)) /\ steps (owns owned) o0 T (xo s))).
  - intros [r w [sp n]] (A & B & C & D). cbn in *. subst. split; [exists r; split; [auto|constructor]|]. split; [exists w; split; [auto|constructor]|]. constructor.
  - intros tr T s [l E] s' _ ((r0 & R1 & R2) & (w0 & W1 & W2) & O) D. unfold x_step, x_acts in *. cbn [fst snd] in *. unfold rplain, wplain in *. rewrite !flat_map_app. cbn [flat_map fst app].
    destruct D; cbn [xr xw xo] in *; rewrite ?app_nil_r.
    + split; [exists r0; split; [auto|eapply steps_snoc; eauto]|]. split; [exists w0; auto|]. eapply steps_app; eauto.
    + split; [exists r0; auto|]. split; [exists w0; split; [auto|eapply steps_snoc; eauto]|]. eapply steps_app; eauto.
    + split; [exists r0; auto|]. split; [exists w0; auto|]. eapply steps_snoc; eauto.
    + split; [exists r0; auto|]. split; [exists w0; auto|]. eapply steps_snoc; eauto.
Qed.

(** ** Ownership *)
Lemma move_same : forall w o p, move w o p o = p. Proof. intros. unfold move. destruct (buf_dec o o); congruence. Qed.
Lemma move_other : forall w o p x, o <> x -> move w o p x = w x. Proof. intros. unfold move. destruct (buf_dec o x); congruence. Qed.
Definition known (T : list xev) (p : spot) (x : buf) (i : nat) : Prop := match p with Unmade => False | By t => seen T i t | Way k => past T (ASend (x, k)) i end.
Lemma known_app : forall T E p x i, known T p x i -> known (T ++ E) p x i.
Proof. intros T E [|t|k] x i H; cbn in *; [auto|now apply seen_app|now apply past_app]. Qed.
Record VO (T : list xev) (o : ost) : Prop := {
  v_mem : forall i u a x, nth_error T i = Some (u, a) -> touches a x -> known T (spots o x) x i;
  v_race : race_free T
}.
Ltac notouch H := unfold touches, reads, writes in H; (repeat match type of H with _ \/ _ => destruct H as [H|H] end); try discriminate H.
Lemma VO_all : forall T o, steps (owns true) o0 T o -> VO T o.
Proof.
  intros T o R. induction R as [|T o e o' R [Vm Vr] St].
  - constructor; [intros [|?]; discriminate|apply race_free_nil].
  - destruct St as [w n t o H|w n t o H|w n t o H|w n t o H|w n t o k H|w n t b]; cbn [spots nway] in *; constructor; cbn [spots nway]; try solve [apply race_free_quiet; [exact Vr|intros x9 Hq; notouch Hq]].
    + intros i u a x Hi Ht. destruct (nth_snoc _ _ _ _ Hi) as [Hi'|[-> Eq]]; [apply known_app; eauto|]. injection Eq as -> ->. notouch Ht. injection Ht as <-. rewrite (H eq_refl). apply seen_here.
    + apply race_free_snoc; [exact Vr|]. intros i u b x Hi _ Hb Ha _ _. notouch Ha. injection Ha as <-. pose proof (Vm _ _ _ _ Hi Hb) as K. now rewrite (H eq_refl) in K.
    + intros i u a x Hi Ht. destruct (nth_snoc _ _ _ _ Hi) as [Hi'|[-> Eq]]; [apply known_app; eauto|]. injection Eq as -> ->. notouch Ht. injection Ht as <-. rewrite (H eq_refl). apply seen_here.
    + apply race_free_snoc; [exact Vr|]. intros i u b x Hi _ Hb Ha _ _. notouch Ha. injection Ha as <-. pose proof (Vm _ _ _ _ Hi Hb) as K. now rewrite (H eq_refl) in K.
    + intros i u a x Hi Ht. destruct (nth_snoc _ _ _ _ Hi) as [Hi'|[-> Eq]].
      * pose proof (Vm _ _ _ _ Hi' Ht) as K. destruct (buf_dec o x) as [<-|N]; [now rewrite H in K|]. rewrite move_other by exact N. now apply known_app.
      * injection Eq as -> ->. notouch Ht. injection Ht as <-. rewrite move_same. apply seen_here.
    + apply race_free_snoc; [exact Vr|]. intros i u b x Hi _ Hb Ha _ _. notouch Ha. injection Ha as <-. pose proof (Vm _ _ _ _ Hi Hb) as K. now rewrite H in K.
    + intros i u a x Hi Ht. destruct (nth_snoc _ _ _ _ Hi) as [Hi'|[-> Eq]]; [|injection Eq as -> ->; notouch Ht].
      pose proof (Vm _ _ _ _ Hi' Ht) as K. destruct (buf_dec o x) as [<-|N]; [|rewrite move_other by exact N; now apply known_app]. rewrite move_same. rewrite H in K. cbn in *. now apply seen_past.
    + intros i u a x Hi Ht. destruct (nth_snoc _ _ _ _ Hi) as [Hi'|[-> Eq]]; [|injection Eq as -> ->; notouch Ht].
      pose proof (Vm _ _ _ _ Hi' Ht) as K. destruct (buf_dec o x) as [<-|N]; [|rewrite move_other by exact N; now apply known_app]. rewrite move_same. rewrite H in K. cbn in *. eapply past_seen; [exact K|constructor].
    + intros i u a x Hi Ht. destruct (nth_snoc _ _ _ _ Hi) as [Hi'|[-> Eq]]; [apply known_app; eauto|]. injection Eq as -> ->. notouch Ht.
Qed.
(** When a Get returns, the object is with its caller *)
Lemma just : forall o E x t b o', steps (owns true) o (E ++ [(t, AWr x); (t, ALab b)]) o' \/ steps (owns true) o (E ++ [(t, ARd x); (t, ALab b)]) o' -> spots o' x = By t.
Proof.
  intros o E x t b o' H.
  assert (G : exists o1 o2 a, (a = AWr x \/ a = ARd x) /\ owns true o1 (t, a) o2 /\ owns true o2 (t, ALab b) o').
  { destruct H as [H|H]; apply steps_app_inv in H; destruct H as (o1 & _ & H); apply steps_cons_inv in H; destruct H as (o2 & A & H); apply steps_cons_inv in H; destruct H as (o3 & B & H); apply steps_nil_inv in H; subst; eauto 8. }
  destruct G as (o1 & o2 & a & Ha & A & B). inversion B; subst. inversion A; subst; destruct Ha as [Ha|Ha]; try discriminate; injection Ha as ->; cbn; auto. apply move_same.
Qed.
Definition got_end (t : nat) (E : list xev) : Prop := forall u t' x, nth_error E u = Some (t', ALab (XGot x)) ->
  t' = t /\ exists E1 a, E = E1 ++ [(t, a); (t, ALab (XGot x))] /\ u = S (length E1) /\ (a = AWr x \/ a = ARd x).
Lemma ends : forall t E1 x a, (forall u t' y, nth_error E1 u <> Some (t', ALab (XGot y))) -> a = AWr x \/ a = ARd x -> got_end t (E1 ++ [(t, a); (t, ALab (XGot x))]).
Proof.
  intros t E1 x a N Ha u t' y H. destruct (Nat.lt_ge_cases u (length E1)) as [L|L].
  - rewrite nth_error_app1 in H by exact L. now apply N in H.
  - rewrite nth_error_app2 in H by exact L. remember (u - length E1) as m eqn:Em. destruct m as [|[|m]]; cbn [nth_error] in H.
    + injection H as _ H. destruct Ha; congruence.
    + injection H as <- <-. split; [auto|]. exists E1, a. repeat split; auto. lia.
    + destruct m; discriminate.
Qed.
Lemma no_got : forall t E, (forall e, In e E -> forall x, snd e <> ALab (XGot x)) -> got_end t E.
Proof. intros t E H u t' x Hn. apply nth_error_In in Hn. now apply H with (x := x) in Hn. Qed.
Lemma look_no : forall t l u t' y, nth_error (look t l) u <> Some (t', ALab (XGot y)).
Proof. intros t l u t' y H. apply nth_error_In in H. apply in_map_iff in H. destruct H as (o & H & _). discriminate. Qed.
Lemma work_no : forall t l, got_end t (work t l).
Proof. intros t l. apply no_got. intros e H x. apply in_map_iff in H. destruct H as (o & <- & _). discriminate. Qed.
Ltac few := apply no_got; intros e9 H9 x9; repeat (destruct H9 as [<-|H9]; [discriminate|]); destruct H9.
Lemma rdoes_got : forall t s l E, rdoes t s l E -> got_end t E.
Proof.
  intros t s l E H. destruct H; try apply work_no.
  - apply (ends t [(t, ARecv (BR id, k))]); auto. intros [|[|u]]; discriminate.
  - apply ends; auto. apply look_no.
  - apply (ends t []); auto. intros [|u]; discriminate.
  - intros u t' x H. exfalso. destruct (Nat.lt_ge_cases u (length (look t (below BR src)))) as [L|L].
    + rewrite nth_error_app1 in H by exact L. now apply look_no in H.
    + rewrite nth_error_app2 in H by exact L. destruct (u - _) as [|[|m]]; discriminate.
  - few.
  - few.
Qed.
Lemma wdoes_got : forall t s l E, wdoes t s l E -> got_end t E.
Proof.
  intros t s l E H. destruct H; try apply work_no.
  - apply (ends t [(t, ARecv (BW id, k))]); auto. intros [|[|u]]; discriminate.
  - apply ends; auto. apply look_no.
  - apply (ends t []); auto. intros [|u]; discriminate.
  - intros u t' x H. exfalso. destruct (Nat.lt_ge_cases u (length (look t (below BW dst)))) as [L|L].
    + rewrite nth_error_app1 in H by exact L. now apply look_no in H.
    + rewrite nth_error_app2 in H by exact L. destruct (u - _) as [|[|m]]; discriminate.
  - few.
  - few.
Qed.
Definition got_seen (T : list xev) : Prop := forall j t x, nth_error T j = Some (t, ALab (XGot x)) ->
  forall i u a, i < j -> nth_error T i = Some (u, a) -> touches a x -> hb T i j.
Lemma got_step : forall T o t E o', steps (owns true) o0 T o -> got_seen T -> got_end t E -> steps (owns true) o E o' -> got_seen (T ++ E).
Proof.
  intros T o t E o' R G En S j t' x Hj i u a L Hi Ht. destruct (Nat.lt_ge_cases j (length T)) as [Lj|Lj].
  - rewrite nth_error_app1 in Hj by exact Lj. rewrite nth_error_app1 in Hi by lia. apply hb_app. eapply G; eauto.
  - rewrite nth_error_app2 in Hj by exact Lj. destruct (En _ _ _ Hj) as (-> & E1 & b & -> & Eu & Hb).
    assert (By' : spots o' x = By t) by (eapply just; destruct Hb as [-> | ->]; [left|right]; exact S).
    replace (T ++ E1 ++ [(t, b); (t, ALab (XGot x))]) with ((T ++ E1 ++ [(t, b)]) ++ [(t, ALab (XGot x))]) in * by (rewrite <- !app_assoc; reflexivity).
    replace j with (length (T ++ E1 ++ [(t, b)])) in * by (rewrite !app_length; cbn; lia).
    rewrite nth_error_app1 in Hi by exact L. apply seen_next.
    assert (S' : steps (owns true) o0 (T ++ E1 ++ [(t, b)]) o').
    { replace (E1 ++ [(t, b); (t, ALab (XGot x))]) with ((E1 ++ [(t, b)]) ++ [(t, ALab (XGot x))]) in S by (rewrite <- app_assoc; reflexivity). apply steps_app_inv in S. destruct S as (o1 & S & S1).
      apply steps_cons_inv in S1. destruct S1 as (o2 & S1 & S2). apply steps_nil_inv in S2. subst. inversion S1; subst. eapply steps_app; eauto. }
    pose proof (v_mem _ _ (VO_all _ _ S') _ _ _ _ Hi Ht) as K. now rewrite By' in K.
Qed.
Lemma got_all : forall tr T s, xruns true tr T s -> got_seen T.
Proof.
  intros tr T s H. induction H as [s _|tr T s [l E] s' R IH D]; [intros [|?]; discriminate|].
  destruct (run_base _ _ _ _ R) as (_ & _ & O). unfold x_step, x_acts in *. cbn [fst snd] in *. destruct D; cbn [xo] in *.
  - eapply got_step; eauto using rdoes_got.
  - eapply got_step; eauto using wdoes_got.
  - eapply (got_step _ _ t); eauto; [few|]. eapply steps_cons; eauto. constructor.
  - eapply (got_step _ _ u); eauto; [few|]. eapply steps_cons; eauto. constructor.
Qed.

(** ** The traces are possible *)
Record FX (T : list xev) (o : ost) : Prop := {
  fx_fe : feasible T;
  fx_new : forall x k, nway o <= k -> none (ASend (x, k)) T /\ none (ARecv (x, k)) T;
  fx_way : forall x k, spots o x = Way k -> k < nway o /\ some (ASend (x, k)) T /\ none (ARecv (x, k)) T;
  fx_close : forall c, none (AClose c) T
}.
Ltac dis := first [discriminate|let Q := fresh in intros Q; injection Q; intros; subst; first [lia|congruence]].
Lemma FX_all : forall owned T o, steps (owns owned) o0 T o -> FX T o.
Proof.
  intros owned T o R. induction R as [|T o e o' R [Fe Fn Fw Fc] St].
  - constructor; cbn; try (repeat constructor; fail). discriminate.
  - assert (Still : forall t a, (forall c, a <> ASend c /\ a <> ARecv c /\ a <> AClose c) -> (forall x k, nway o <= k -> none (ASend (x, k)) (T ++ [(t, a)]) /\ none (ARecv (x, k)) (T ++ [(t, a)])) /\
      (forall x k, spots o x = Way k -> k < nway o /\ some (ASend (x, k)) (T ++ [(t, a)]) /\ none (ARecv (x, k)) (T ++ [(t, a)])) /\ (forall c, none (AClose c) (T ++ [(t, a)]))).
    { intros t a Q. repeat split; intros; try (apply none_snoc; [now apply Fn|apply Q]); try (now apply (Fw _ _ H)).
      - apply some_app. now apply Fw.
      - apply none_snoc; [now apply Fw|apply Q].
      - apply none_snoc; [apply Fc|apply Q]. }
    destruct St as [w n t o H|w n t o H|w n t o H|w n t o H|w n t o k H|w n t b]; cbn [spots nway] in *.
    + destruct (Still t (ARd o)) as (A & B & C); [repeat split; discriminate|]. constructor; cbn; auto. apply fe_one; [auto|]. apply m_mem with o. left. now left.
    + destruct (Still t (AWr o)) as (A & B & C); [repeat split; discriminate|]. constructor; cbn; auto. apply fe_one; [auto|]. apply m_mem with o. right. now left.
    + destruct (Still t (AWr o)) as (A & B & C); [repeat split; discriminate|]. constructor; cbn; auto. { apply fe_one; [auto|]. apply m_mem with o. right. now left. }
      intros x k. destruct (buf_dec o x) as [<-|N]; [rewrite move_same; discriminate|]. rewrite move_other by exact N. apply B.
    + destruct (Fn o n (le_n n)) as [Sn Rn]. constructor; cbn [spots nway].
      * apply fe_one; [auto|]. now apply m_send.
      * intros x k L. destruct (Fn x k) as [A B]; [lia|]. split; apply none_snoc; auto; dis.
      * intros x k. destruct (buf_dec o x) as [<-|N].
        -- rewrite move_same. intros Q. injection Q as <-. split; [lia|]. split; [apply some_in; now apply Exists_cons_hd|apply none_snoc; [auto|discriminate]].
        -- rewrite move_other by exact N. intros Q. destruct (Fw _ _ Q) as (A & B & C). split; [lia|]. split; [now apply some_app|apply none_snoc; [auto|discriminate]].
      * intros c. apply none_snoc; [auto|discriminate].
    + destruct (Fw _ _ H) as (K1 & K2 & K3). constructor; cbn [spots nway].
      * apply fe_one; [auto|]. now apply m_recv.
      * intros x k' L. destruct (Fn x k' L) as [A B]. split; apply none_snoc; auto; dis.
      * intros x k'. destruct (buf_dec o x) as [<-|N]; [rewrite move_same; discriminate|]. rewrite move_other by exact N. intros Q. destruct (Fw _ _ Q) as (A & B & C). split; [lia|]. split; [now apply some_app|apply none_snoc; [auto|dis]].
      * intros c. apply none_snoc; [auto|discriminate].
    + destruct (Still t (ALab b)) as (A & B & C); [repeat split; discriminate|]. constructor; cbn; auto. apply fe_one; [auto|]. apply m_lab.
Qed.
