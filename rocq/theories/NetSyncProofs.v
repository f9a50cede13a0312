(** * Proofs for C113 *)
From Coq Require Import List Bool Arith Lia.
From Verif Require Import Trans NetModel SyncSpec SyncProofs FeasSpec FeasProofs NetSyncModel.
Import ListNotations.

(** ** What a trace that is possible says about the order of sends and receives *)
Section Order.
Context {L M B : Type}.
Notation ev := (ev L M B).
Implicit Types T : list ev.
Lemma feas_at : forall T, feasible T -> forall z t a, nth_error T z = Some (t, a) -> may (firstn z T) t a.
Proof.
  intros T H. induction H as [|T u b H IH Hm]; intros z t a Hz; [destruct z; discriminate|].
  destruct (nth_snoc _ _ _ _ Hz) as [Hz'|[-> Eq]].
  - pose proof (nth_lt _ _ _ Hz'). rewrite firstn_app. replace (z - length T) with 0 by lia. cbn [firstn]. rewrite app_nil_r. auto.
  - injection Eq as -> ->. rewrite firstn_app, Nat.sub_diag, firstn_all. cbn [firstn]. now rewrite app_nil_r.
Qed.
Lemma counts_mono : forall P T E p q, counts P T p -> counts P (T ++ E) q -> p <= q.
Proof.
  intros P T E. induction E as [|[t a] E IH] using rev_ind; intros p q Hp Hq; [rewrite app_nil_r in Hq; rewrite (counts_fun _ _ _ _ Hp Hq); lia|].
  rewrite app_assoc in Hq. inversion Hq as [Eq|T' t' a' n H1 H2 Eq|T' t' a' n H1 H2 Eq].
  - destruct (T ++ E); discriminate.
  - apply app_inj_tail in Eq. destruct Eq as [-> _]. specialize (IH _ _ Hp H1). lia.
  - apply app_inj_tail in Eq. destruct Eq as [-> _]. exact (IH _ _ Hp H1).
Qed.
(** The k-th receive is after the k-th send, and the send happens before it. *)
Lemma put_get : forall T c k y z, feasible T -> kth (puts c) T k y -> kth (gets c) T k z -> hb T y z.
Proof.
  intros T c k y z F Hy Hz. apply hb_chan with c k; auto. destruct Hy as ((t & a & Ny & n & ->) & Cy), Hz as ((u & b & Nz & ->) & Cz).
  pose proof (feas_at _ F _ _ _ Nz) as Hm. inversion Hm; subst; [|match goal with H : touches _ _ |- _ => destruct H as [[H|[H|H]]|[H|[H|H]]]; discriminate end].
  match goal with C1 : counts (gets c) _ ?g, C2 : counts (puts c) _ ?p, L1 : ?g < ?p |- _ => rewrite (counts_fun _ _ _ _ C1 Cz) in L1; rename C2 into Cp; rename L1 into Lt end.
  destruct (Nat.lt_ge_cases y z) as [G|G]; [exact G|exfalso].
  assert (Eq : firstn y T = firstn z T ++ firstn (y - z) (skipn z T)).
  { rewrite <- (firstn_skipn z T) at 1. rewrite firstn_app. rewrite firstn_firstn, Nat.min_r by lia. rewrite firstn_length_le; [reflexivity|]. apply nth_lt in Nz. lia. }
  rewrite Eq in Cy. pose proof (counts_mono _ _ _ _ _ Cp Cy). lia.
Qed.
Lemma close_end : forall T c y z t u, feasible T -> nth_error T y = Some (t, AClose c) -> nth_error T z = Some (u, AEnd c) -> hb T y z.
Proof.
  intros T c y z t u F Ny Nz. eapply hb_sync; [|exact Ny|exact Nz|constructor].
  pose proof (feas_at _ F _ _ _ Nz) as Hm. inversion Hm; subst; [|match goal with H : touches _ _ |- _ => destruct H as [[H|[H|H]]|[H|[H|H]]]; discriminate end].
  destruct (Nat.lt_ge_cases y z) as [G|G]; [exact G|exfalso]. destruct (Nat.eq_dec y z) as [->|N]; [congruence|].
  match goal with H : some (AClose c) _ |- _ => apply Exists_exists in H; destruct H as ([w b] & Hin & Hb); cbn in Hb; subst b end.
  apply In_nth_error in Hin. destruct Hin as [x Hx]. pose proof (nth_lt _ _ _ Hx) as Lx. rewrite firstn_length in Lx.
  assert (Nx : nth_error T x = Some (w, AClose c)).
  { rewrite <- (firstn_skipn z T). now apply nth_app_l. }
  pose proof (feas_at _ F _ _ _ Ny) as Hm'. inversion Hm'; subst; [|match goal with H : touches _ _ |- _ => destruct H as [[H|[H|H]]|[H|[H|H]]]; discriminate end].
  match goal with H : none (AClose c) _ |- _ => unfold none in H; rewrite Forall_forall in H; apply (H (w, AClose c)); [|reflexivity] end.
  apply nth_error_In with x. rewrite <- (firstn_skipn y T) in Nx. rewrite nth_error_app1 in Nx; [exact Nx|]. rewrite firstn_length. apply nth_lt in Ny. lia.
Qed.
End Order.

Section Order2.
Context {L M B : Type}.
Implicit Types T : list (ev L M B).
Lemma count_kth : forall P T p k, counts P T p -> k < p -> exists y, kth P T k y.
Proof.
  intros P T p k H. induction H as [|T t a m H IH Hp|T t a m H IH Hp]; intros Lt; [lia| |].
  - destruct (Nat.eq_dec k m) as [->|N].
    + exists (length T). split; [exists t, a; rewrite nth_error_app2, Nat.sub_diag by lia; auto|]. rewrite firstn_app, Nat.sub_diag, firstn_all. cbn [firstn]. now rewrite app_nil_r.
    + destruct IH as (y & (u & b & Hn & Hb) & C); [lia|]. exists y. split; [exists u, b; split; [now apply nth_app_l|exact Hb]|]. pose proof (nth_lt _ _ _ Hn). rewrite firstn_app. replace (y - length T) with 0 by lia. cbn [firstn]. now rewrite app_nil_r.
  - destruct IH as (y & (u & b & Hn & Hb) & C); [lia|]. exists y. split; [exists u, b; split; [now apply nth_app_l|exact Hb]|]. pose proof (nth_lt _ _ _ Hn). rewrite firstn_app. replace (y - length T) with 0 by lia. cbn [firstn]. now rewrite app_nil_r.
Qed.
Lemma kth_prefix : forall P T z k y, kth P (firstn z T) k y -> kth P T k y.
Proof.
  intros P T z k y ((u & b & Hn & Hb) & C). pose proof (nth_lt _ _ _ Hn) as Ly. rewrite firstn_length in Ly. split.
  - exists u, b. split; [|exact Hb]. rewrite <- (firstn_skipn z T). now apply nth_app_l.
  - rewrite firstn_firstn, Nat.min_l in C by lia. exact C.
Qed.
(** The k-th receive has a k-th send. *)
Lemma get_put : forall T c k z, feasible T -> kth (gets c) T k z -> exists y, kth (puts c) T k y /\ hb T y z.
Proof.
  intros T c k z F Hz. pose proof Hz as ((u & b & Nz & ->) & Cz).
  pose proof (feas_at _ F _ _ _ Nz) as Hm. inversion Hm; subst; [|match goal with H : touches _ _ |- _ => destruct H as [[H|[H|H]]|[H|[H|H]]]; discriminate end].
  match goal with C1 : counts (gets c) _ ?g, C2 : counts (puts c) _ ?p, L1 : ?g < ?p |- _ => rewrite (counts_fun _ _ _ _ C1 Cz) in L1; destruct (count_kth _ _ _ _ C2 L1) as (y & Hy) end.
  exists y. pose proof (kth_prefix _ _ _ _ _ Hy) as Hy'. split; [exact Hy'|]. exact (put_get _ _ _ _ _ F Hy' Hz).
Qed.
Lemma end_close : forall T c z u, feasible T -> nth_error T z = Some (u, AEnd c) -> exists y w, nth_error T y = Some (w, AClose c) /\ hb T y z.
Proof.
  intros T c z u F Nz. pose proof (feas_at _ F _ _ _ Nz) as Hm. inversion Hm; subst; [|match goal with H : touches _ _ |- _ => destruct H as [[H|[H|H]]|[H|[H|H]]]; discriminate end].
  match goal with H : some (AClose c) _ |- _ => apply Exists_exists in H; destruct H as ([w b] & Hin & Hb); cbn in Hb; subst b end.
  apply In_nth_error in Hin. destruct Hin as [y Hy].
  assert (Ny : nth_error T y = Some (w, AClose c)) by (rewrite <- (firstn_skipn z T); now apply nth_app_l).
  exists y, w. split; [exact Ny|]. exact (close_end _ _ _ _ _ _ F Ny Nz).
Qed.
End Order2.

(** ** The traces of a chain are possible *)
Section Chain.
Context {V E : Type}.
Notation nev := (ev Empty_set nat E).
Notation nruns := (traced (@n_init V E) nstep n_acts).
Implicit Types (T : list nev) (s : list (stage V E)).

Record ch_ok T (i : nat) (c : chan V) : Prop := {
  k_cnt : exists g, counts (gets i) T g /\ counts (puts i) T (g + length (cbuf c));
  k_cap : capacity i (ccap c) T;
  k_open : ccl c = false -> none (AClose i) T;
  k_shut : ccl c = true -> some (AClose i) T
}.
(** The event e says nothing of channel i *)
Definition apart (i : nat) (e : nev) : Prop := match snd e with APut j _ | AGet j | AClose j => j <> i | ASend _ | ARecv _ => False | _ => True end.
Lemma ch_apart : forall T i c F, ch_ok T i c -> Forall (apart i) F -> ch_ok (T ++ F) i c.
Proof.
  intros T i c F [(g & K1 & K2) K3 K4 K5] A. rewrite Forall_forall in A. constructor.
  - exists g. split; (apply cnt_quiet; [assumption|]); apply Forall_forall; intros [t a] Hin; specialize (A _ Hin); unfold apart in A; cbn in *.
    + intros ->. now apply A.
    + intros [n ->]. now apply A.
  - apply cap_app; [assumption|]. apply Forall_forall. intros [t a] Hin m Eq. specialize (A _ Hin). unfold apart in A. cbn in *. subst a. now exfalso.
  - intros Ho. apply none_app; [auto|]. apply Forall_forall. intros [t a] Hin Eq. specialize (A _ Hin). unfold apart in A. cbn in *. subst a. now apply A.
  - intros Hs. apply some_app. auto.
Qed.
Record F T s : Prop := {
  f_fe : feasible T;
  f_ch : forall i p c, nth_error s i = Some (p, c) -> ch_ok T i c;
  f_snd : forall c, none (ASend c) T;
  f_put : forall t i n, In (t, APut i n) T -> t = i;
  f_get : forall t i, In (t, AGet i) T -> t = S i;
  f_cls : forall t i, In (t, AClose i) T -> t = i;
  f_end : forall t i, In (t, AEnd i) T -> t = S i
}.
Lemma nth_mid : forall {A} (l : list A) x r, nth_error (l ++ x :: r) (length l) = Some x.
Proof. intros. rewrite nth_error_app2 by lia. now rewrite Nat.sub_diag. Qed.
Lemma nth_mid_other : forall {A} (l : list A) x y r i, i <> length l -> nth_error (l ++ x :: r) i = nth_error (l ++ y :: r) i.
Proof.
  intros A l x y r i N. destruct (Nat.lt_ge_cases i (length l)) as [L|L]; [now rewrite !nth_error_app1 by exact L|].
  rewrite !nth_error_app2 by lia. remember (i - length l) as m. destruct m as [|m]; [lia|reflexivity].
Qed.
Lemma nth_mid2 : forall {A} (l : list A) a b r, nth_error (l ++ a :: b :: r) (S (length l)) = Some b.
Proof. intros. rewrite nth_error_app2 by lia. now replace (S (length l) - length l) with 1 by lia. Qed.
Lemma nth_mid2_other : forall {A} (l : list A) a b a' b' r i, i <> length l -> i <> S (length l) -> nth_error (l ++ a :: b :: r) i = nth_error (l ++ a' :: b' :: r) i.
Proof.
  intros A l a b a' b' r i N1 N2. destruct (Nat.lt_ge_cases i (length l)) as [L|L]; [now rewrite !nth_error_app1 by exact L|].
  rewrite !nth_error_app2 by lia. remember (i - length l) as m. destruct m as [|[|m]]; [lia|lia|reflexivity].
Qed.
Lemma put_ok : forall T t i n b v, ch_ok T i (Ch n b false) -> ch_ok (T ++ [(t, APut i n)]) i (Ch n (b ++ [v]) false).
Proof.
  intros T t i n b v [(g & K1 & K2) K3 K4 K5]. cbn in *. constructor; cbn.
  - exists g. split; [apply c_no; [assumption|discriminate]|]. rewrite app_length. cbn. replace (g + (length b + 1)) with (S (g + length b)) by lia. apply c_yes; [assumption|]. now exists n.
  - apply cap_app; [assumption|]. constructor; [|constructor]. cbn. intros m Eq. now injection Eq as ->.
  - intros _. apply none_snoc; [auto|discriminate].
  - discriminate.
Qed.
Lemma get_ok : forall T t i n b v cl, ch_ok T i (Ch n (v :: b) cl) -> ch_ok (T ++ [(t, AGet i)]) i (Ch n b cl).
Proof.
  intros T t i n b v cl [(g & K1 & K2) K3 K4 K5]. cbn in *. constructor; cbn.
  - exists (S g). split; [now apply c_yes|]. replace (S g + length b) with (g + S (length b)) by lia. apply c_no; [assumption|]. intros [m Eq]. discriminate.
  - apply cap_app; [assumption|]. constructor; [|constructor]. cbn. discriminate.
  - intros H. apply none_snoc; [auto|discriminate].
  - intros H. apply some_app. auto.
Qed.
Lemma close_ok : forall T t i n b, ch_ok T i (Ch n b false) -> ch_ok (T ++ [(t, AClose i)]) i (Ch n b true).
Proof.
  intros T t i n b [(g & K1 & K2) K3 K4 K5]. cbn in *. constructor; cbn.
  - exists g. split; (apply c_no; [assumption|]); [discriminate|]. intros [m Eq]. discriminate.
  - apply cap_app; [assumption|]. constructor; [|constructor]. cbn. discriminate.
  - discriminate.
  - intros _. apply some_in. now apply Exists_cons_hd.
Qed.
Lemma may_put : forall T t i n b, ch_ok T i (Ch n b false) -> length b < Nat.max 1 n -> may T t (APut i n).
Proof. intros T t i n b [(g & K1 & K2) K3 K4 K5] L. cbn [cbuf ccap ccl] in *. apply m_put with (g + length b) g; auto. lia. Qed.
Lemma may_get : forall T t i n v b cl, ch_ok T i (Ch n (v :: b) cl) -> may T t (AGet i).
Proof. intros T t i n v b cl [(g & K1 & K2) K3 K4 K5]. cbn [cbuf ccap ccl length] in *. apply m_get with (g + S (length b)) g; auto. lia. Qed.
Lemma may_close : forall T t i n b, ch_ok T i (Ch n b false) -> may T t (AClose i).
Proof. intros T t i n b [_ _ K4 _]. apply m_close. auto. Qed.
Lemma may_end : forall T t i n, (forall c, none (ASend c) T) -> ch_ok T i (Ch n [] true) -> may T t (AEnd i).
Proof. intros T t i n N [(g & K1 & K2) _ _ K5]. cbn in *. rewrite Nat.add_0_r in K2. apply m_end with g; auto. Qed.
(** Who does an event of the kinds of F *)
Definition mine (e : nev) : Prop := match e with (t, APut i _) | (t, AClose i) => t = i | (t, AGet i) | (t, AEnd i) => t = S i | (_, ASend _) => False | _ => True end.
Lemma F_step : forall T s s' D, F T s -> feasible (T ++ D) -> Forall mine D -> (forall i p c, nth_error s' i = Some (p, c) -> ch_ok (T ++ D) i c) -> F (T ++ D) s'.
Proof.
  intros T s s' D [F1 F2 F3 F4 F5 F6 F7] Fe Mi Ch. rewrite Forall_forall in Mi. constructor; auto.
  - intros c. apply none_app; [auto|]. apply Forall_forall. intros [t a] Hin Eq. specialize (Mi _ Hin). cbn in *. now subst a.
  - intros t i n Hin. apply in_app_or in Hin. destruct Hin as [Hin|Hin]; [eauto|exact (Mi _ Hin)].
  - intros t i Hin. apply in_app_or in Hin. destruct Hin as [Hin|Hin]; [eauto|exact (Mi _ Hin)].
  - intros t i Hin. apply in_app_or in Hin. destruct Hin as [Hin|Hin]; [eauto|exact (Mi _ Hin)].
  - intros t i Hin. apply in_app_or in Hin. destruct Hin as [Hin|Hin]; [eauto|exact (Mi _ Hin)].
Qed.
Ltac fa := repeat (apply Forall_cons; [unfold apart; cbn; auto; try congruence|]); try apply Forall_nil.
Ltac mi := repeat (apply Forall_cons; [cbn; auto|]); try apply Forall_nil.
(** The channel at [length l] changes, the others do not *)
Lemma ch_one : forall T D l p c p' c' r, F T (l ++ (p, c) :: r) -> (ch_ok T (length l) c -> ch_ok (T ++ D) (length l) c') -> (forall i, i <> length l -> Forall (apart i) D) ->
  forall i q d, nth_error (l ++ (p', c') :: r) i = Some (q, d) -> ch_ok (T ++ D) i d.
Proof.
  intros T D l p c p' c' r H K A i q d Hn. destruct (Nat.eq_dec i (length l)) as [->|N].
  - rewrite nth_mid in Hn. injection Hn as <- <-. apply K. apply (f_ch _ _ H) with p. apply nth_mid.
  - rewrite (nth_mid_other _ _ (p, c)) in Hn by exact N. apply ch_apart; [eapply f_ch; eauto|auto].
Qed.
Lemma ch_two : forall T D l p c p' c' q d q' r, F T (l ++ (p, c) :: (q, d) :: r) -> (ch_ok T (length l) c -> ch_ok (T ++ D) (length l) c') -> (forall i, i <> length l -> Forall (apart i) D) ->
  forall i q0 d0, nth_error (l ++ (p', c') :: (q', d) :: r) i = Some (q0, d0) -> ch_ok (T ++ D) i d0.
Proof.
  intros T D l p c p' c' q d q' r H K A i q0 d0 Hn. destruct (Nat.eq_dec i (length l)) as [->|N].
  - rewrite nth_mid in Hn. injection Hn as <- <-. apply K. apply (f_ch _ _ H) with p. apply nth_mid.
  - apply ch_apart; [|auto]. destruct (Nat.eq_dec i (S (length l))) as [->|N2].
    + rewrite nth_mid2 in Hn. injection Hn as <- <-. apply (f_ch _ _ H) with q. apply nth_mid2.
    + rewrite (nth_mid2_other _ _ _ (p, c) (q, d)) in Hn by assumption. eapply f_ch; eauto.
Qed.
Lemma F_all : forall tr T s, nruns tr T s -> F T s.
Proof.
  apply (traced_ind_inv _ _ _ (fun _ T s => F T s)).
  - intros s (l & ->). constructor; try contradiction; [constructor| |intros c; constructor].
    intros i p c H. unfold start in H. apply nth_error_In in H. apply in_map_iff in H. destruct H as ([q n] & Eq & _). injection Eq as _ <-. constructor; cbn; try discriminate.
    + exists 0. split; constructor.
    + intros m H. inversion H.
    + intros _. constructor.
  - intros tr T s l s' _ H St. pose proof H as [F1 F2 F3 F4 F5 F6 F7].
    destruct St as [l p v n b r Hl|l p v k c r|l q n v b cl k c r|l q n k c r|k c r|l p n b r|l e p c r|l q n v b cl|l v p|l q n]; cbn [n_acts].
    + replace (capof (l ++ (PSend v p, Ch n b false) :: r) (length l)) with n by (unfold capof; now rewrite nth_mid).
      pose proof (F2 _ _ _ (nth_mid _ _ _)) as K. apply (F_step _ _ _ _ H); [apply fe_one; [auto|eapply may_put; [exact K|lia]]|mi|].
      apply (ch_one _ _ _ _ _ _ _ _ H); [intros; now apply put_ok|intros; fa].
    + pose proof (F2 _ _ _ (nth_mid _ _ _)) as K. assert (K' := put_ok T (length l) _ _ _ v K). cbn [app] in K'. apply (F_step _ _ _ _ H); [apply fe_two; [auto|eapply may_put; [exact K|cbn; lia]|eapply may_get; exact K']|mi|].
      apply (ch_two _ _ _ _ _ _ _ _ _ _ _ H); [intros _|intros; fa]. pose proof (get_ok _ (S (length l)) _ _ _ _ _ K') as K2. now rewrite <- app_assoc in K2.
    + pose proof (F2 _ _ _ (nth_mid _ _ _)) as K. apply (F_step _ _ _ _ H); [apply fe_one; [auto|eapply may_get; exact K]|mi|].
      apply (ch_two _ _ _ _ _ _ _ _ _ _ _ H); [intros; eapply get_ok; eauto|intros; fa].
    + pose proof (F2 _ _ _ (nth_mid _ _ _)) as K. apply (F_step _ _ _ _ H); [apply fe_one; [auto|eapply may_end; [exact F3|exact K]]|mi|].
      apply (ch_two _ _ _ _ _ _ _ _ _ _ _ H); [intros _; apply ch_apart; [exact K|fa]|intros; fa].
    + apply (F_step _ _ _ _ H); [now apply fe_end|mi|]. apply (ch_one T [] [] (PRecv k) c _ _ r H); [now rewrite app_nil_r|intros; fa].
    + pose proof (F2 _ _ _ (nth_mid _ _ _)) as K. apply (F_step _ _ _ _ H); [apply fe_one; [auto|eapply may_close; exact K]|mi|].
      apply (ch_one _ _ _ _ _ _ _ _ H); [intros; now apply close_ok|intros; fa].
    + apply (F_step _ _ _ _ H); [apply fe_one; [auto|apply m_lab]|mi|].
      apply (ch_one _ _ _ _ _ _ _ _ H); [intros; apply ch_apart; [assumption|fa]|intros; fa].
    + pose proof (F2 _ _ _ (nth_mid _ _ _)) as K. rewrite app_length. cbn [length]. replace (length l + 1 - 1) with (length l) by lia. apply (F_step _ _ _ _ H); [apply fe_one; [auto|eapply may_get; exact K]|mi; lia|].
      apply (ch_one _ _ _ _ _ _ _ _ H); [intros; eapply get_ok; eauto|intros; fa].
    + pose proof (F2 _ _ _ (nth_mid _ _ _)) as K. assert (K' := put_ok T (length l) _ _ _ v K). cbn [app] in K'. apply (F_step _ _ _ _ H); [apply fe_two; [auto|eapply may_put; [exact K|cbn; lia]|eapply may_get; exact K']|mi|].
      apply (ch_one _ _ _ _ _ _ _ _ H); [intros _|intros; fa]. pose proof (get_ok _ (S (length l)) _ _ _ _ _ K') as K2. now rewrite <- app_assoc in K2.
    + pose proof (F2 _ _ _ (nth_mid _ _ _)) as K. rewrite app_length. cbn [length]. replace (length l + 1 - 1) with (length l) by lia. apply (F_step _ _ _ _ H); [apply fe_one; [auto|eapply may_end; [exact F3|exact K]]|mi; lia|].
      apply (ch_one _ _ _ _ _ _ _ _ H); [intros _; apply ch_apart; [exact K|fa]|intros; fa].
Qed.

(** ** A calm chain: the end of the last stream is after everything *)
Definition sawend T (i : nat) : Prop := i = 0 \/ exists z, nth_error T z = Some (i, AEnd (i - 1)).
Record G T s : Prop := {
  g_st : forall i p c, nth_error s i = Some (p, c) -> (ccl c = true /\ p = PEnd /\ sawend T i) \/ (ccl c = false /\ calm p) \/ (ccl c = false /\ after p /\ sawend T i);
  g_cl : forall i y, i < length s -> nth_error T y = Some (i, AClose i) -> forall x t a, nth_error T x = Some (t, a) -> t <= i -> x = y \/ hb T x y;
  g_en : forall i z, i < length s -> nth_error T z = Some (S i, AEnd i) -> forall x t a, nth_error T x = Some (t, a) -> t <= i -> hb T x z
}.
Lemma sawend_app : forall T D i, sawend T i -> sawend (T ++ D) i.
Proof. intros T D i [->|(z & Hz)]; [now left|right]. exists z. now apply nth_app_l. Qed.
Lemma end_closed : forall T s z u i p c, F T s -> nth_error T z = Some (u, AEnd i) -> nth_error s i = Some (p, c) -> ccl c = true /\ exists y, nth_error T y = Some (i, AClose i).
Proof.
  intros T s z u i p c H Nz Hi. pose proof (feas_at _ (f_fe _ _ H) _ _ _ Nz) as Hm. inversion Hm; subst; [|match goal with H : touches _ _ |- _ => destruct H as [[H|[H|H]]|[H|[H|H]]]; discriminate end].
  match goal with H : some (AClose i) _ |- _ => apply Exists_exists in H; destruct H as ([w b] & Hin & Hb); cbn in Hb; subst b end.
  apply In_nth_error in Hin. destruct Hin as [y Hy].
  assert (Ny : nth_error T y = Some (w, AClose i)) by (rewrite <- (firstn_skipn z T); now apply nth_app_l).
  pose proof (f_cls _ _ H _ _ (nth_error_In _ _ Ny)) as ->. split; [|now exists y].
  pose proof (k_open _ _ _ (f_ch _ _ H _ _ _ Hi)) as K. destruct (ccl c); [reflexivity|]. specialize (K eq_refl). unfold none in K. rewrite Forall_forall in K. now destruct (K _ (nth_error_In _ _ Ny)).
Qed.
Lemma closed_evt : forall T s y w i p c, F T s -> nth_error T y = Some (w, AClose i) -> nth_error s i = Some (p, c) -> ccl c = true.
Proof.
  intros T s y w i p c H Ny Hi. pose proof (k_open _ _ _ (f_ch _ _ H _ _ _ Hi)) as K. destruct (ccl c); [reflexivity|]. specialize (K eq_refl). unfold none in K. rewrite Forall_forall in K. now destruct (K _ (nth_error_In _ _ Ny)).
Qed.
Lemma down : forall T s i p c, F T s -> G T s -> nth_error s i = Some (p, c) -> ccl c = true -> forall j q d, j <= i -> nth_error s j = Some (q, d) -> q = PEnd.
Proof.
  intros T s i. induction i as [|i IH]; intros p c HF HG Hi Hc j q d L Hj.
  - replace j with 0 in Hj by lia. rewrite Hi in Hj. injection Hj as <- <-. destruct (g_st _ _ HG _ _ _ Hi) as [(_ & -> & _)|[(E1 & _)|(E1 & _)]]; congruence.
  - destruct (g_st _ _ HG _ _ _ Hi) as [(_ & -> & S1)|[(E1 & _)|(E1 & _)]]; try congruence.
    destruct (Nat.eq_dec j (S i)) as [->|N]; [rewrite Hi in Hj; congruence|].
    destruct S1 as [S1|(z & Hz)]; [discriminate|]. replace (S i - 1) with i in Hz by lia.
    destruct (nth_error s i) as [[p' c']|] eqn:Hi'.
    + destruct (end_closed _ _ _ _ _ _ _ HF Hz Hi') as [C' _]. apply (IH _ _ HF HG eq_refl C' j q d); [lia|exact Hj].
    + apply nth_error_None in Hi'. assert (S i < length s) by (apply nth_error_Some; congruence). lia.
Qed.
(** The events of D are of goroutines that have not ended, or of the caller *)
Definition alive s (e : nev) : Prop := match nth_error s (fst e) with Some (p, _) => p <> PEnd | None => True end.
Lemma nth_app_cases : forall {A} (l d : list A) x v, nth_error (l ++ d) x = Some v -> nth_error l x = Some v \/ (length l <= x /\ In v d).
Proof.
  intros A l d x v H. destruct (Nat.lt_ge_cases x (length l)) as [L|L].
  - left. now rewrite nth_error_app1 in H.
  - right. split; [exact L|]. rewrite nth_error_app2 in H by exact L. now apply nth_error_In in H.
Qed.
Lemma G_step : forall T s s' D, F T s -> G T s -> length s' = length s -> Forall (alive s) D ->
  (forall i p c, nth_error s' i = Some (p, c) -> (ccl c = true /\ p = PEnd /\ sawend (T ++ D) i) \/ (ccl c = false /\ calm p) \/ (ccl c = false /\ after p /\ sawend (T ++ D) i)) ->
  (forall i y, i < length s -> length T <= y -> nth_error (T ++ D) y = Some (i, AClose i) -> forall x t a, nth_error (T ++ D) x = Some (t, a) -> t <= i -> x = y \/ hb (T ++ D) x y) ->
  (forall i z, i < length s -> length T <= z -> nth_error (T ++ D) z = Some (S i, AEnd i) -> forall x t a, nth_error (T ++ D) x = Some (t, a) -> t <= i -> hb (T ++ D) x z) ->
  G (T ++ D) s'.
Proof.
  intros T s s' D HF HG Len Al St Nc Ne. rewrite Forall_forall in Al.
  assert (Old : forall i p c x t a, nth_error s i = Some (p, c) -> ccl c = true -> nth_error (T ++ D) x = Some (t, a) -> t <= i -> nth_error T x = Some (t, a)).
  { intros i p c x t a Hi Hc Hx L. destruct (nth_app_cases _ _ _ _ Hx) as [Hx'|[_ Hin]]; [exact Hx'|exfalso].
    specialize (Al _ Hin). unfold alive in Al. cbn in Al. destruct (nth_error s t) as [[q d]|] eqn:Ht.
    - apply Al. exact (down _ _ _ _ _ HF HG Hi Hc _ _ _ L Ht).
    - apply nth_error_None in Ht. assert (i < length s) by (apply nth_error_Some; congruence). lia. }
  constructor; [exact St| |]; rewrite Len.
  - intros i y L Hy x t a Hx Lt. destruct (nth_app_cases _ _ _ _ Hy) as [Hy'|[Ge _]]; [|eauto].
    destruct (nth_error s i) as [[p c]|] eqn:Hi; [|apply nth_error_None in Hi; lia].
    pose proof (Old _ _ _ _ _ _ Hi (closed_evt _ _ _ _ _ _ _ HF Hy' Hi) Hx Lt) as Hx'. destruct (g_cl _ _ HG _ _ L Hy' _ _ _ Hx' Lt); [now left|right]. now apply hb_app.
  - intros i z L Hz x t a Hx Lt. destruct (nth_app_cases _ _ _ _ Hz) as [Hz'|[Ge _]]; [|eauto].
    destruct (nth_error s i) as [[p c]|] eqn:Hi; [|apply nth_error_None in Hi; lia].
    destruct (end_closed _ _ _ _ _ _ _ HF Hz' Hi) as [C _].
    pose proof (Old _ _ _ _ _ _ Hi C Hx Lt) as Hx'. apply hb_app. exact (g_en _ _ HG _ _ L Hz' _ _ _ Hx' Lt).
Qed.
Definition okst T i (p : proc V E) (c : chan V) : Prop := (ccl c = true /\ p = PEnd /\ sawend T i) \/ (ccl c = false /\ calm p) \/ (ccl c = false /\ after p /\ sawend T i).
Lemma okst_app : forall T D i p c, okst T i p c -> okst (T ++ D) i p c.
Proof. intros T D i p c [(A & B & C)|[(A & B)|(A & B & C)]]; [left|right; left|right; right]; auto using sawend_app. Qed.
Lemma st_one : forall T D l p c p' c' r, G T (l ++ (p, c) :: r) -> okst (T ++ D) (length l) p' c' -> forall i q d, nth_error (l ++ (p', c') :: r) i = Some (q, d) -> okst (T ++ D) i q d.
Proof.
  intros T D l p c p' c' r H K i q d Hn. destruct (Nat.eq_dec i (length l)) as [->|N].
  - rewrite nth_mid in Hn. injection Hn as <- <-. exact K.
  - rewrite (nth_mid_other _ _ (p, c)) in Hn by exact N. apply okst_app. exact (g_st _ _ H _ _ _ Hn).
Qed.
Lemma st_two : forall T D l p c p' c' q d q' r, G T (l ++ (p, c) :: (q, d) :: r) -> okst (T ++ D) (length l) p' c' -> okst (T ++ D) (S (length l)) q' d ->
  forall i q0 d0, nth_error (l ++ (p', c') :: (q', d) :: r) i = Some (q0, d0) -> okst (T ++ D) i q0 d0.
Proof.
  intros T D l p c p' c' q d q' r H K K2 i q0 d0 Hn. destruct (Nat.eq_dec i (length l)) as [->|N].
  - rewrite nth_mid in Hn. injection Hn as <- <-. exact K.
  - destruct (Nat.eq_dec i (S (length l))) as [->|N2].
    + rewrite nth_mid2 in Hn. injection Hn as <- <-. exact K2.
    + rewrite (nth_mid2_other _ _ _ (p, c) (q, d)) in Hn by assumption. apply okst_app. exact (g_st _ _ H _ _ _ Hn).
Qed.
Lemma ok_send : forall T i v p c c', okst T i (PSend v p) c -> ccl c' = ccl c -> okst T i p c'.
Proof. intros T i v p c c' [(A & B & C)|[(A & B)|(A & B & C)]] Eq; [discriminate|right; left|right; right]; inversion B; subst; rewrite Eq; auto. Qed.
Lemma ok_call : forall T i e p c, okst T i (PCall e p) c -> okst T i p c.
Proof. intros T i v p c [(A & B & C)|[(A & B)|(A & B & C)]]; [discriminate|right; left|right; right]; inversion B; subst; auto. Qed.
Lemma ok_recv : forall T i k c v, okst T i (PRecv k) c -> okst T i (k (Some v)) c.
Proof. intros T i k c v [(A & B & C)|[(A & B)|(A & B & C)]]; [discriminate|right; left|right; right]; inversion B; subst; auto. Qed.
Lemma ok_recvend : forall T i k c, okst T i (PRecv k) c -> sawend T i -> okst T i (k None) c.
Proof. intros T i k c [(A & B & C)|[(A & B)|(A & B & C)]] Sw; [discriminate|right; right|right; right]; inversion B; subst; auto. Qed.
Lemma ok_same : forall T i p c c', okst T i p c -> ccl c' = ccl c -> okst T i p c'.
Proof. intros T i p c c' H Eq. unfold okst. now rewrite Eq. Qed.
Lemma ok_close : forall T i p n b, okst T i (PClose p) (Ch n b false) -> okst T i p (Ch n b true) /\ sawend T i.
Proof. intros T i p n b [(A & B & C)|[(A & B)|(A & B & C)]]; [discriminate|inversion B|]. inversion B. subst. split; [left|]; cbn; auto. Qed.
Ltac nonew := intros ? ? _ Ge Hn; destruct (nth_app_cases _ _ _ _ Hn) as [Hn'|[_ Hin]]; [apply nth_lt in Hn'; lia|cbn in Hin; repeat (destruct Hin as [Hin|Hin]; [discriminate|]); contradiction].
Ltac alv := repeat (apply Forall_cons; [unfold alive; cbn [fst]; first [rewrite nth_mid; discriminate|rewrite nth_mid2; discriminate|idtac]|]); try apply Forall_nil.
(** The new event is the one at [length T]. *)
Lemma only_new : forall T (e v : nev) y, length T <= y -> nth_error (T ++ [e]) y = Some v -> y = length T /\ v = e.
Proof. intros T e v y Ge H. destruct (nth_snoc _ _ _ _ H) as [H'|[-> Eq]]; [apply nth_lt in H'; lia|auto]. Qed.
Lemma end_new : forall T s i n p, F T s -> G T s -> nth_error s i = Some (p, Ch n [] true) -> feasible (T ++ [(S i, AEnd i)]) ->
  forall j z, j < length s -> length T <= z -> nth_error (T ++ [(S i, AEnd i)]) z = Some (S j, AEnd j) -> forall x t a, nth_error (T ++ [(S i, AEnd i)]) x = Some (t, a) -> t <= j -> hb (T ++ [(S i, AEnd i)]) x z.
Proof.
  intros T s i n p HF HG Hi Fe j z Lj Lz Hz x t a Hx Lt. destruct (only_new _ _ _ _ Lz Hz) as [-> Eq]. injection Eq as ->.
  pose proof (k_shut _ _ _ (f_ch _ _ HF _ _ _ Hi) eq_refl) as Sh. apply Exists_exists in Sh. destruct Sh as ([w b] & Hin & Hb). cbn in Hb. subst b.
  pose proof (f_cls _ _ HF _ _ Hin) as ->. apply In_nth_error in Hin. destruct Hin as [y Hy].
  assert (Cl : hb (T ++ [(S i, AEnd i)]) y (length T)) by (eapply close_end; [exact Fe|apply nth_app_l; exact Hy|exact Hz]).
  destruct (nth_snoc _ _ _ _ Hx) as [Hx'|[-> Eq']]; [|injection Eq' as -> _; lia].
  destruct (g_cl _ _ HG _ _ Lj Hy _ _ _ Hx' Lt) as [->|Hb]; [exact Cl|]. eapply hb_tr; [apply hb_app; exact Hb|exact Cl].
Qed.
Lemma close_new : forall T s i, F T s -> G T s -> i < length s -> sawend T i ->
  forall j y, j < length s -> length T <= y -> nth_error (T ++ [(i, AClose i)]) y = Some (j, AClose j) -> forall x t a, nth_error (T ++ [(i, AClose i)]) x = Some (t, a) -> t <= j -> x = y \/ hb (T ++ [(i, AClose i)]) x y.
Proof.
  intros T s i HF HG Li Sw j y Lj Ly Hy x t a Hx Lt. destruct (only_new _ _ _ _ Ly Hy) as [-> Eq]. injection Eq as ->.
  destruct (nth_snoc _ _ _ _ Hx) as [Hx'|[-> Eq']]; [right|now left]. pose proof (nth_lt _ _ _ Hx') as Lx.
  destruct (Nat.eq_dec t i) as [->|N]; [eapply hb_po; eauto|].
  destruct Sw as [->|(z & Hz)]; [lia|]. assert (Eq1 : i = S (i - 1)) by lia.
  assert (B : hb T x z) by (apply (g_en _ _ HG (i - 1) z) with t a; [lia| |exact Hx'|lia]; rewrite <- Eq1; exact Hz).
  eapply hb_tr; [apply hb_app; exact B|]. eapply hb_po; [exact (nth_lt _ _ _ Hz)|apply nth_app_l; exact Hz|exact Hy].
Qed.
Lemma G_all : forall tr T s, traced (fun s => exists l, calm_chain l /\ s = start l) nstep n_acts tr T s -> F T s /\ G T s.
Proof.
  intros tr T s R. assert (R' : forall tr T s, traced (fun s => exists l, calm_chain l /\ s = start l) nstep n_acts tr T s -> nruns tr T s).
  { clear. intros tr T s H. induction H as [s (l & _ & ->)|]; [constructor; now exists l|econstructor; eauto]. }
  assert (Q : F T s /\ G T s); [|exact Q]. revert tr T s R. 
  assert (Q : forall tr T s, traced (fun s => exists l, calm_chain l /\ s = start l) nstep n_acts tr T s -> G T s); [|intros; split; [eapply F_all; eauto|eauto]].
  intros tr T s R. induction R as [s (l & Cl & ->)|tr T s l s' R H St].
  - constructor; try (intros ? ? ? Hn; destruct y || destruct z; discriminate); try (intros ? [|?] ? Hn; discriminate).
    intros i p c Hn. unfold start in Hn. destruct l as [|[p0 n0] l]; [contradiction|]. destruct Cl as [C1 C2]. destruct i as [|i]; cbn in Hn.
    + injection Hn as <- <-. right. destruct C1; [right|left]; cbn; repeat split; auto. now left.
    + right. left. apply nth_error_In in Hn. apply in_map_iff in Hn. destruct Hn as ([q n] & Eq & Hin). injection Eq as <- <-. split; [reflexivity|]. rewrite Forall_forall in C2. exact (C2 _ Hin).
  - pose proof (F_all _ _ _ (R' _ _ _ R)) as HF. pose proof (f_fe _ _ (F_all _ _ _ (tr_snoc _ _ _ _ _ _ _ _ (R' _ _ _ R) St))) as Fe. clear R R'. assert (HS := g_st _ _ H). fold (okst T) in HS.
    destruct St as [l p v n b r Hl|l p v k c r|l q n v b cl k c r|l q n k c r|k c r|l p n b r|l e p c r|l q n v b cl|l v p|l q n]; cbn [n_acts] in *.
    + eapply G_step; [exact HF|exact H|rewrite ?app_length; reflexivity|alv| |nonew|nonew]. apply (st_one _ _ _ _ _ _ _ _ H). apply okst_app. eapply ok_send; [exact (HS _ _ _ (nth_mid _ _ _))|reflexivity].
    + eapply G_step; [exact HF|exact H|rewrite ?app_length; reflexivity|alv| |nonew|nonew]. apply (st_two _ _ _ _ _ _ _ _ _ _ _ H); apply okst_app.
      * eapply ok_send; [exact (HS _ _ _ (nth_mid _ _ _))|reflexivity].
      * apply ok_recv. exact (HS _ _ _ (nth_mid2 _ _ _ _)).
    + eapply G_step; [exact HF|exact H|rewrite ?app_length; reflexivity|alv| |nonew|nonew]. apply (st_two _ _ _ _ _ _ _ _ _ _ _ H); apply okst_app.
      * eapply ok_same; [exact (HS _ _ _ (nth_mid _ _ _))|reflexivity].
      * apply ok_recv. exact (HS _ _ _ (nth_mid2 _ _ _ _)).
    + eapply G_step; [exact HF|exact H|rewrite ?app_length; reflexivity|alv| |nonew|].
      * apply (st_two _ _ _ _ _ _ _ _ _ _ _ H); [apply okst_app; exact (HS _ _ _ (nth_mid _ _ _))|]. apply ok_recvend; [apply okst_app; exact (HS _ _ _ (nth_mid2 _ _ _ _))|]. right. exists (length T). rewrite nth_mid. do 3 f_equal. lia.
      * eapply end_new; [exact HF|exact H|apply nth_mid|exact Fe].
    + eapply G_step; [exact HF|exact H|reflexivity|alv| |nonew|nonew]. apply (st_one T [] [] (PRecv k) c _ _ r H). apply ok_recvend; [apply okst_app; exact (HS 0 _ _ eq_refl)|now left].
    + destruct (ok_close _ _ _ _ _ (HS _ _ _ (nth_mid _ _ _))) as [O1 O2]. eapply G_step; [exact HF|exact H|rewrite ?app_length; reflexivity|alv| | |nonew].
      * apply (st_one _ _ _ _ _ _ _ _ H). now apply okst_app.
      * apply (close_new _ _ _ HF H); [rewrite app_length; cbn; lia|exact O2].
    + eapply G_step; [exact HF|exact H|rewrite ?app_length; reflexivity|alv| |nonew|nonew]. apply (st_one _ _ _ _ _ _ _ _ H). apply okst_app. eapply ok_call. exact (HS _ _ _ (nth_mid _ _ _)).
    + eapply G_step; [exact HF|exact H|rewrite ?app_length; reflexivity| | |nonew|nonew].
      * apply Forall_cons; [|constructor]. unfold alive. cbn [fst]. rewrite (proj2 (nth_error_None _ _)) by lia. exact I.
      * apply (st_one _ _ _ _ _ _ _ _ H). apply okst_app. eapply ok_same; [exact (HS _ _ _ (nth_mid _ _ _))|reflexivity].
    + eapply G_step; [exact HF|exact H|rewrite ?app_length; reflexivity| | |nonew|nonew].
      * apply Forall_cons; [unfold alive; cbn [fst]; rewrite nth_mid; discriminate|]. apply Forall_cons; [|constructor]. unfold alive. cbn [fst]. rewrite (proj2 (nth_error_None _ _)) by (rewrite app_length; cbn; lia). exact I.
      * apply (st_one _ _ _ _ _ _ _ _ H). apply okst_app. eapply ok_send; [exact (HS _ _ _ (nth_mid _ _ _))|reflexivity].
    + rewrite app_length in *. cbn [length] in *. replace (length l + 1) with (S (length l)) in * by lia. replace (S (length l) - 1) with (length l) in * by lia.
      eapply G_step; [exact HF|exact H|reflexivity| | |nonew|].
      * apply Forall_cons; [|constructor]. unfold alive. cbn [fst]. rewrite (proj2 (nth_error_None _ _)) by (rewrite app_length; cbn; lia). exact I.
      * intros i p c Hn. apply okst_app. exact (HS _ _ _ Hn).
      * eapply end_new; [exact HF|exact H|apply nth_mid|exact Fe].
Qed.
End Chain.
