(** * C114: what Copy orders *)
From Coq Require Import List Bool Arith Lia.
From Verif Require Import Trans NetModel CopyModel SyncSpec SyncProofs FeasSpec FeasProofs NetSyncProofs CopySyncModel.
Import ListNotations.
Open Scope nat_scope.

Section Kth.
Context {L M B : Type}.
Implicit Types T : list (ev L M B).
Lemma kth_last : forall P T t a k y, kth P (T ++ [(t, a)]) k y -> kth P T k y \/ (y = length T /\ P a /\ counts P T k).
Proof.
  intros P T t a k y ((u & b & Hn & Hp) & C). destruct (nth_snoc _ _ _ _ Hn) as [Hn'|[-> Eq]].
  - left. pose proof (nth_lt _ _ _ Hn'). split; [now exists u, b|]. rewrite firstn_app in C. replace (y - length T) with 0 in C by lia. cbn [firstn] in C. now rewrite app_nil_r in C.
  - right. injection Eq as -> ->. rewrite firstn_app, Nat.sub_diag, firstn_all in C. cbn [firstn] in C. rewrite app_nil_r in C. auto.
Qed.
Lemma kth_count : forall P T k y m, kth P T k y -> counts P T m -> k < m.
Proof.
  intros P T k y m ((u & b & Hn & Hp) & C) Cm. pose proof (nth_lt _ _ _ Hn) as L1.
  assert (C' : counts P (firstn (S y) T) (S k)).
  { assert (Eq : firstn (S y) T = firstn y T ++ [(u, b)]); [|rewrite Eq; now apply c_yes].
    clear - Hn. revert y Hn. induction T as [|e T IH]; intros [|y] Hn; try discriminate; cbn in *; [injection Hn as ->; reflexivity|]. f_equal. exact (IH _ Hn). }
  rewrite <- (firstn_skipn (S y) T) in Cm. pose proof (counts_mono _ _ _ _ _ C' Cm). lia.
Qed.
End Kth.

Section Props.
Context {A : Type}.
Variable caps : list nat.
Notation n := (length caps).
Notation kev := (ev Empty_set nat A).
(** The runs of Copy on a source that delivers xs and is closed: tr the steps, T the operations, s the state reached *)
Notation copies xs := (traced (fun s : copy A => s = cinit xs) (cstep caps) (k_acts caps)).
Implicit Types (T : list kev) (s : copy A).

(** One item more has been taken than was sent to copy i, exactly while i has still to get it. *)
Definition owed s (i : nat) : nat := match kp s with KSend _ j => if j <=? i then 1 else 0 | _ => 0 end.
Record K T s : Prop := {
  k_fe : feasible T;
  k_ch : forall i, i < n -> ch_ok T i (Ch (ccap caps i) (cb s i) (cc s i));
  k_snd : forall c, none (ASend c) T;
  k_put : forall t i m, In (t, APut i m) T -> t = 0 /\ i < n;
  k_get : forall t i, In (t, AGet i) T -> t = S i;
  k_cls : forall t i, In (t, AClose i) T -> t = 0;
  k_end : forall t i, In (t, AEnd i) T -> t = S i;
  k_lab : forall t v, In (t, ALab v) T -> t = 0;
  k_num : exists m, counts taken T m /\ forall i, i < n -> exists p, counts (puts i) T p /\ m = p + owed s i;
  k_ord : forall i k x y, kth taken T k x -> kth (puts i) T k y -> x < y
}.
Definition kmine (e : kev) : Prop := match e with (t, APut i _) => t = 0 /\ i < n | (t, AClose i) => t = 0 | (t, ALab _) => t = 0 | (t, AGet i) | (t, AEnd i) => t = S i | (_, ASend _) => False | _ => True end.
(** One event more *)
Lemma K_one : forall T s s' t a, K T s -> may T t a -> kmine (t, a) ->
  (forall i, i < n -> ch_ok (T ++ [(t, a)]) i (Ch (ccap caps i) (cb s' i) (cc s' i))) ->
  (exists m, counts taken (T ++ [(t, a)]) m /\ forall i, i < n -> exists p, counts (puts i) (T ++ [(t, a)]) p /\ m = p + owed s' i) -> K (T ++ [(t, a)]) s'.
Proof.
  intros T s s' t a [K1 K2 K3 K4 K5 K6 K7 K8 K9 K10] Ma Mi Ch Nu.
  assert (In_cases : forall e, In e (T ++ [(t, a)]) -> In e T \/ e = (t, a)) by (intros e He; apply in_app_or in He; destruct He as [He|[He|[]]]; auto).
  constructor; auto.
  - now apply fe_one.
  - intros c. apply none_snoc; [auto|]. intros ->. exact Mi.
  - intros u i m H. destruct (In_cases _ H) as [H'|Eq]; [eauto|]. injection Eq as -> <-. exact Mi.
  - intros u i H. destruct (In_cases _ H) as [H'|Eq]; [eauto|]. injection Eq as -> <-. exact Mi.
  - intros u i H. destruct (In_cases _ H) as [H'|Eq]; [eauto|]. injection Eq as -> <-. exact Mi.
  - intros u i H. destruct (In_cases _ H) as [H'|Eq]; [eauto|]. injection Eq as -> <-. exact Mi.
  - intros u i H. destruct (In_cases _ H) as [H'|Eq]; [eauto|]. injection Eq as -> <-. exact Mi.
  - intros i k x y Hx Hy. destruct (kth_last _ _ _ _ _ _ Hx) as [Hx'|(-> & Px & Cx)], (kth_last _ _ _ _ _ _ Hy) as [Hy'|(-> & Py & Cy)].
    + eauto.
    + destruct Hx' as ((u & b & Hn & _) & _). exact (nth_lt _ _ _ Hn).
    + exfalso. destruct Hy' as ((u & b & Hn & c & ->) & Cy) eqn:Ey. destruct (K4 _ _ _ (nth_error_In _ _ Hn)) as [_ Li]. destruct K9 as (m & C1 & C2). destruct (C2 i Li) as (p & C3 & E).
      pose proof (kth_count _ _ _ _ _ Hy' C3). rewrite (counts_fun _ _ _ _ Cx C1) in H. lia.
    + destruct Px as [x Px], Py as [m Py]. congruence.
Qed.
Ltac ap := constructor; [unfold apart; cbn; auto; try congruence|constructor].
Lemma K_all : forall xs tr T s, copies xs tr T s -> K T s.
Proof.
  intros xs tr T s R. induction R as [s ->|tr T s l s' R HK St].
  - constructor; try contradiction.
    + constructor.
    + intros i _. constructor; cbn.
      * exists 0. split; constructor.
      * intros m Hs. inversion Hs.
      * intros _. constructor.
      * discriminate.
    + intros c. constructor.
    + exists 0. split; [constructor|]. intros i _. exists 0. split; [constructor|reflexivity].
    + intros i k x y ((t & a & Hn & _) & _). destruct x; discriminate.
  - pose proof HK as [K1 K2 K3 K4 K5 K6 K7 K8 (m & C1 & C2) K10].
    assert (Quiet : forall s2, T = T ++ [] -> cb s2 = cb s -> cc s2 = cc s -> (forall i, i < n -> owed s2 i = owed s i) -> K T s2).
    { intros s2 _ E1 E2 E3. constructor; auto; [intros; rewrite E1, E2; auto|]. exists m. split; [exact C1|]. intros i Li. rewrite (E3 i Li). auto. }
    assert (Same : forall t a, ~ taken a -> (forall i, ~ puts i a) -> exists m, counts taken (T ++ [(t, a)]) m /\ forall i, i < n -> exists p, counts (puts i) (T ++ [(t, a)]) p /\ m = p + owed s i).
    { intros t a N1 N2. exists m. split; [now apply c_no|]. intros i Li. destruct (C2 i Li) as (p & P1 & P2). exists p. split; [apply c_no; auto|exact P2]. }
    destruct St as [x r b c|b c|r v i b c Li Hc Hb|r v i b c Li Hc Hz Hb|r v b c|r i b c Li Hc|r b c|r p i v w b c Li Hb|r p i b c Li Hb Hc]; cbn [k_acts kp cin].
    + apply (K_one _ _ _ _ _ HK); [apply m_lab|reflexivity| |].
      * intros i Li. apply ch_apart; [exact (K2 i Li)|ap].
      * exists (S m). split; [apply c_yes; [assumption|now exists x]|]. intros i Li. destruct (C2 i Li) as (p & P1 & P2). exists p. split; [apply c_no; [assumption|intros [q Eq]; discriminate]|]. cbn in *. lia.
    + rewrite app_nil_r. apply Quiet; auto. now rewrite app_nil_r.
    + pose proof (K2 i Li) as Ki. cbn [cb cc] in Ki. rewrite Hc in Ki. apply (K_one _ _ _ _ _ HK); [eapply may_put; [exact Ki|lia]|cbn; auto| |].
      * intros j Lj. cbn [cb cc]. destruct (Nat.eq_dec j i) as [->|N]; [rewrite upd_same, Hc; now apply put_ok|rewrite upd_other by congruence; apply ch_apart; [exact (K2 j Lj)|ap]].
      * exists m. split; [apply c_no; [assumption|intros [q Eq]; discriminate]|]. intros j Lj. destruct (C2 j Lj) as (p & P1 & P2). unfold owed in P2 |- *; cbn [kp] in P2 |- *. destruct (Nat.eq_dec j i) as [->|N].
        -- exists (S p). split; [apply c_yes; [assumption|now eexists]|]. rewrite Nat.leb_refl in P2. destruct (S i <=? i) eqn:E; [apply Nat.leb_le in E; lia|lia].
        -- exists p. split; [apply c_no; [assumption|intros [q Eq]; congruence]|]. destruct (i <=? j) eqn:E1, (S i <=? j) eqn:E2; try lia; rewrite ?Nat.leb_le, ?Nat.leb_gt in *; lia.
    + pose proof (K2 i Li) as Ki. cbn [cb cc] in Ki. rewrite Hc, Hz, Hb in Ki. change (T ++ [(0, APut i 0); (S i, AGet i)]) with (T ++ [(0, APut i 0)] ++ [(S i, AGet i)]). rewrite app_assoc.
      assert (KM : K (T ++ [(0, APut i 0)]) (Copy r (KSend v (S i)) (upd b i [v]) c)).
      { apply (K_one _ _ _ _ _ HK); [eapply may_put; [exact Ki|cbn; lia]|cbn; auto| |].
        * intros j Lj. cbn [cb cc]. destruct (Nat.eq_dec j i) as [->|N]; [rewrite upd_same, Hc, Hz; exact (put_ok _ _ _ _ _ v Ki)|rewrite upd_other by congruence; apply ch_apart; [exact (K2 j Lj)|ap]].
        * exists m. split; [apply c_no; [assumption|intros [q Eq]; discriminate]|]. intros j Lj. destruct (C2 j Lj) as (p & P1 & P2). unfold owed in P2 |- *; cbn [kp] in P2 |- *. destruct (Nat.eq_dec j i) as [->|N].
          -- exists (S p). split; [apply c_yes; [assumption|now eexists]|]. rewrite Nat.leb_refl in P2. destruct (S i <=? i) eqn:E; [apply Nat.leb_le in E; lia|lia].
          -- exists p. split; [apply c_no; [assumption|intros [q Eq]; congruence]|]. destruct (i <=? j) eqn:E1, (S i <=? j) eqn:E2; try lia; rewrite ?Nat.leb_le, ?Nat.leb_gt in *; lia. }
      pose proof (k_ch _ _ KM i Li) as Ki2. cbn [cb cc] in Ki2. rewrite upd_same, Hc, Hz in Ki2.
      apply (K_one _ _ _ _ _ KM); [eapply may_get; exact Ki2|reflexivity| |].
      * intros j Lj. cbn [cb cc]. destruct (Nat.eq_dec j i) as [->|N]; [rewrite Hc, Hz, Hb; exact (get_ok _ _ _ _ _ _ _ Ki2)|]. apply ch_apart; [|ap]. pose proof (k_ch _ _ KM j Lj) as Kj. cbn [cb cc] in Kj. now rewrite upd_other in Kj by congruence.
      * destruct (k_num _ _ KM) as (m2 & D1 & D2). exists m2. split; [apply c_no; [assumption|intros [q Eq]; discriminate]|]. intros j Lj. destruct (D2 j Lj) as (p & P1 & P2). exists p. split; [apply c_no; [assumption|intros [q Eq]; discriminate]|exact P2].
    + rewrite app_nil_r. apply Quiet; auto; [now rewrite app_nil_r|]. intros i Li. cbn. destruct (n <=? i) eqn:E; [apply Nat.leb_le in E; lia|reflexivity].
    + pose proof (K2 i Li) as Ki. cbn [cb cc] in Ki. rewrite Hc in Ki. apply (K_one _ _ _ _ _ HK); [eapply may_close; exact Ki|reflexivity| |].
      * intros j Lj. cbn [cb cc]. destruct (Nat.eq_dec j i) as [->|N]; [rewrite upd_same; now apply close_ok|rewrite upd_other by congruence; apply ch_apart; [exact (K2 j Lj)|ap]].
      * apply Same; [intros [q Eq]; discriminate|intros j [q Eq]; discriminate].
    + rewrite app_nil_r. apply Quiet; auto. now rewrite app_nil_r.
    + pose proof (K2 i Li) as Ki. cbn [cb cc] in Ki. rewrite Hb in Ki. apply (K_one _ _ _ _ _ HK); [eapply may_get; exact Ki|reflexivity| |].
      * intros j Lj. cbn [cb cc]. destruct (Nat.eq_dec j i) as [->|N]; [rewrite upd_same; eapply get_ok; exact Ki|rewrite upd_other by congruence; apply ch_apart; [exact (K2 j Lj)|ap]].
      * apply Same; [intros [q Eq]; discriminate|intros j [q Eq]; discriminate].
    + pose proof (K2 i Li) as Ki. cbn [cb cc] in Ki. rewrite Hb, Hc in Ki. apply (K_one _ _ _ _ _ HK); [eapply may_end; [exact K3|exact Ki]|reflexivity| |].
      * intros j Lj. apply ch_apart; [exact (K2 j Lj)|ap].
      * apply Same; [intros [q Eq]; discriminate|intros j [q Eq]; discriminate].
Qed.
(** Once a copy is closed nothing more is taken. *)
Definition past_top s : Prop := kp s = KEnd \/ exists j, kp s = KClose j.
Lemma L_all : forall xs tr T s, copies xs tr T s -> (forall t i, In (t, AClose i) T -> past_top s) /\
  (forall x y t v u i, nth_error T x = Some (t, ALab v) -> nth_error T y = Some (u, AClose i) -> x < y).
Proof.
  intros xs tr T s R. induction R as [s ->|tr T s l s' R [H1 H2] St]; [split; [contradiction|intros [|x]; discriminate]|].
  assert (Quiet : forall s2 D, (past_top s -> past_top s2) -> (forall t i, In (t, AClose i) D -> past_top s2) -> (forall t v, ~ In (t, ALab v) D) ->
    (forall t i, In (t, AClose i) (T ++ D) -> past_top s2) /\ (forall x y t v u i, nth_error (T ++ D) x = Some (t, ALab v) -> nth_error (T ++ D) y = Some (u, AClose i) -> x < y)).
  { intros s2 D Q1 Q2 Q3. split.
    - intros t i Hin. apply in_app_or in Hin. destruct Hin as [Hin|Hin]; eauto.
    - intros x y t v u i Hx Hy. destruct (nth_app_cases _ _ _ _ Hx) as [Hx'|[_ Hin]]; [|destruct (Q3 _ _ Hin)].
      destruct (nth_app_cases _ _ _ _ Hy) as [Hy'|[Ge _]]; [eauto|]. apply nth_lt in Hx'. lia. }
  destruct St as [x r b c|b c|r v i b c Li Hc Hb|r v i b c Li Hc Hz Hb|r v b c|r i b c Li Hc|r b c|r p i v w b c Li Hb|r p i b c Li Hb Hc]; cbn [k_acts kp cin].
  - split.
    + intros t i Hin. apply in_app_or in Hin. destruct Hin as [Hin|[Eq|[]]]; [|discriminate]. destruct (H1 _ _ Hin) as [E|[j E]]; discriminate.
    + intros y z t v u i Hy Hz. destruct (nth_snoc _ _ _ _ Hz) as [Hz'|[_ Eq]]; [|discriminate]. destruct (H1 _ _ (nth_error_In _ _ Hz')) as [E|[j E]]; discriminate.
  - apply Quiet; [intros [E|[j E]]; discriminate|contradiction|auto].
  - apply Quiet; [intros [E|[j E]]; discriminate|intros t j [Eq|[]]; discriminate|intros t y [Eq|[]]; discriminate].
  - apply Quiet; [intros [E|[j E]]; discriminate|intros t j [Eq|[Eq|[]]]; discriminate|intros t y [Eq|[Eq|[]]]; discriminate].
  - apply Quiet; [intros [E|[j E]]; discriminate|contradiction|auto].
  - apply Quiet; [intros _; right; eexists; reflexivity|intros t j _; right; eexists; reflexivity|intros t y [Eq|[]]; discriminate].
  - apply Quiet; [intros _; now left|contradiction|auto].
  - apply Quiet; [auto|intros t j [Eq|[]]; discriminate|intros t y [Eq|[]]; discriminate].
  - apply Quiet; [auto|intros t j [Eq|[]]; discriminate|intros t y [Eq|[]]; discriminate].
Qed.

(** Every operation of every run is one its channel allows at that moment. *)
Theorem C114_feasible : forall xs tr T s, copies xs tr T s -> feasible T.
Proof. intros xs tr T s H. exact (k_fe _ _ (K_all _ _ _ _ H)). Qed.
(** Copy's goroutine took the k-th item from the source before the reader of any copy does anything from its k-th receive on. *)
Theorem C114_item : forall xs tr T s, copies xs tr T s -> forall i k x z, kth taken T k x -> kth (gets i) T k z ->
  forall w b, nth_error T w = Some (S i, b) -> z <= w -> hb T x w.
Proof.
  intros xs tr T s H i k x z Hx Hz w b Hw Lw. pose proof (K_all _ _ _ _ H) as HK.
  assert (Hy : exists y, kth (puts i) T k y /\ hb T y z) by exact (get_put _ _ _ _ (k_fe _ _ HK) Hz). destruct Hy as (y & Hy & B).
  pose proof (k_ord _ _ HK _ _ _ _ Hx Hy) as Lt. destruct Hx as ((t & a & Nx & v & ->) & _), Hy as ((u & c & Ny & m & ->) & _), Hz as ((q & d & Nz & ->) & _).
  pose proof (k_lab _ _ HK _ _ (nth_error_In _ _ Nx)) as ->. destruct (k_put _ _ HK _ _ _ (nth_error_In _ _ Ny)) as [-> _]. pose proof (k_get _ _ HK _ _ (nth_error_In _ _ Nz)) as ->.
  assert (B2 : hb T x z) by (eapply hb_tr; [eapply hb_po; [exact Lt|exact Nx|exact Ny]|exact B]).
  destruct (Nat.eq_dec z w) as [->|N]; [exact B2|]. eapply hb_tr; [exact B2|eapply hb_po; [|exact Nz|exact Hw]; lia].
Qed.
(** All items were taken before the reader of a copy sees its end: no item is taken later. *)
Theorem C114_end : forall xs tr T s, copies xs tr T s -> forall i z, nth_error T z = Some (S i, AEnd i) ->
  forall x t v, nth_error T x = Some (t, ALab v) -> hb T x z.
Proof.
  intros xs tr T s H i z Hz x t v Hx. pose proof (K_all _ _ _ _ H) as HK. destruct (L_all _ _ _ _ H) as [_ L].
  destruct (end_close _ _ _ _ (k_fe _ _ HK) Hz) as (y & u & Hy & B). pose proof (L _ _ _ _ _ _ Hx Hy) as Lt.
  pose proof (k_lab _ _ HK _ _ (nth_error_In _ _ Hx)) as ->. pose proof (k_cls _ _ HK _ _ (nth_error_In _ _ Hy)) as ->.
  eapply hb_tr; [eapply hb_po; [exact Lt|exact Hx|exact Hy]|exact B].
Qed.
End Props.

Ltac onward H c := let H' := fresh in let G := fresh in
  (match type of H with traced _ ?st _ _ _ ?s => eassert (G : st s _ _) by c end); pose proof (tr_snoc _ _ _ _ _ _ _ _ H G) as H'; clear H G; rename H' into H.
(** What the readers of two copies do with an item is not ordered. *)
Definition two_copies : list (ev Empty_set nat nat) := [(0, ALab 7); (0, APut 0 1); (0, APut 1 1); (1, AGet 0); (2, AGet 1)].
Lemma two_run : exists tr s, traced (fun s : copy nat => s = cinit [7]) (cstep [1; 1]) (k_acts [1; 1]) tr two_copies s.
Proof.
  assert (H0 : traced (fun s : copy nat => s = cinit [7]) (cstep [1; 1]) (k_acts [1; 1]) [] [] (cinit [7])) by now constructor.
  onward H0 ltac:(apply CRecv).
  onward H0 ltac:(apply CSend; [cbn; lia|reflexivity|cbn; lia]).
  onward H0 ltac:(apply CSend; [cbn; lia|reflexivity|cbn; lia]).
  onward H0 ltac:(apply (COut [1; 1] _ _ 0 7 []); [cbn; lia|reflexivity]).
  onward H0 ltac:(apply (COut [1; 1] _ _ 1 7 []); [cbn; lia|reflexivity]).
  eexists _, _. exact H0.
Qed.
Theorem C114_readers_witness : exists tr T s y z, traced (fun s : copy nat => s = cinit [7]) (cstep [1; 1]) (k_acts [1; 1]) tr T s /\ y < z /\
  kth (gets 0) T 0 y /\ kth (gets 1) T 0 z /\ ~ hb T y z.
Proof.
  destruct two_run as (tr & s & H). exists tr, two_copies, s, 3, 4. split; [exact H|]. split; [lia|].
  split; [split; [eexists _, _; split; reflexivity|]|split; [split; [eexists _, _; split; reflexivity|]|]].
  - cbn. apply (c_no _ [_; _] _ _ 0); [apply (c_no _ [_] _ _ 0); [apply (c_no _ [] _ _ 0); [constructor|]|]|]; discriminate.
  - cbn. apply (c_no _ [_; _; _] _ _ 0); [apply (c_no _ [_; _] _ _ 0); [apply (c_no _ [_] _ _ 0); [apply (c_no _ [] _ _ 0); [constructor|]|]|]|]; discriminate.
  - assert (Q : forall i j, hb two_copies i j -> i = 3 -> False); [|intros B; exact (Q _ _ B eq_refl)]. clear.
    intros i j Hh. induction Hh as [i j t a b Hl Hi Hj|i j t u a b Hl Hi Hj Hp|i j t u a b x Hl Hi Hj Ha Hw _ _ _|i j c k Hl ((t & a & Hi & c9 & ->) & _)|i j c k n9 u Hl _ Hj _|i j k H1 I1 H2 I2]; [| | | | |exact I1]; intros ->; try discriminate.
    + injection Hi as <- <-. do 4 (destruct j as [|j]; [lia|]). destruct j as [|j]; [discriminate Hj|]. destruct j; discriminate Hj.
    + injection Hi as <- <-. inversion Hp.
    + injection Hi as <- <-. destruct Ha.
    + do 4 (destruct j as [|j]; [lia|]). destruct j as [|j]; [discriminate Hj|]. destruct j; discriminate Hj.
Qed.
(** The hypotheses of C114_item and C114_end: a run in which the reader of copy 1 gets the item and sees the end *)
Example C114_ex : exists tr T s x z e, traced (fun s : copy nat => s = cinit [7]) (cstep [1; 0]) (k_acts [1; 0]) tr T s /\
  kth taken T 0 x /\ kth (gets 1) T 0 z /\ nth_error T e = Some (2, AEnd 1).
Proof.
  assert (H0 : traced (fun s : copy nat => s = cinit [7]) (cstep [1; 0]) (k_acts [1; 0]) [] [] (cinit [7])) by now constructor.
  onward H0 ltac:(apply CRecv).
  onward H0 ltac:(apply CSend; [cbn; lia|reflexivity|cbn; lia]).
  onward H0 ltac:(apply CHand; [cbn; lia|reflexivity|reflexivity|reflexivity]).
  onward H0 ltac:(apply CNext).
  onward H0 ltac:(apply CRecvEnd).
  onward H0 ltac:(apply CClose; [cbn; lia|reflexivity]).
  onward H0 ltac:(apply CClose; [cbn; lia|reflexivity]).
  onward H0 ltac:(apply (COutEnd [1; 0] _ _ 1); [cbn; lia|reflexivity|reflexivity]).
  eexists _, _, _, 0, 3, 6. split; [exact H0|]. split; [split; [eexists _, _; split; [reflexivity|eexists; reflexivity]|apply c_nil]|]. split; [|reflexivity].
  split; [eexists _, _; split; reflexivity|]. cbn. apply (c_no _ [_; _] _ _ 0); [apply (c_no _ [_] _ _ 0); [apply (c_no _ [] _ _ 0); [constructor|]|]|]; discriminate.
Qed.
Print Assumptions C114_feasible. Print Assumptions C114_item. Print Assumptions C114_end. Print Assumptions C114_readers_witness. Print Assumptions C114_ex.
