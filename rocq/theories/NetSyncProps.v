(** * C113: what a chain of stream operators orders *)
From Coq Require Import List Bool Arith Lia ZArith.
From Verif Require Import GoBase Trans NetModel SyncSpec SyncProofs FeasSpec FeasProofs XRingModel XStreamModel NetSyncModel NetSyncProofs.
Import ListNotations.
Open Scope nat_scope.

(** The runs of the chain l, with what its goroutines do: tr the steps, T the operations, s the state reached *)
Notation chains l := (traced (fun s => s = start l) nstep n_acts).

Section Props.
Context {V E : Type}.
Implicit Types (l : list (proc V E * nat)) (T : list (ev Empty_set nat E)).
Lemma chain_n : forall l tr T s, chains l tr T s -> traced n_init nstep n_acts tr T s.
Proof. intros l tr T s H. induction H as [s ->|]; [constructor; now exists l|econstructor; eauto]. Qed.

(** Every operation of every run is one its channel allows at that moment. *)
Theorem C113_feasible : forall l tr T s, chains l tr T s -> feasible T.
Proof. intros l tr T s H. exact (f_fe _ _ (F_all _ _ _ (chain_n _ _ _ _ H))). Qed.

(** What goroutine i has done up to the k-th send on its channel is before what the next one does from its k-th receive on. *)
Theorem C113_item : forall l tr T s, chains l tr T s -> forall i k y z, kth (puts i) T k y -> kth (gets i) T k z ->
  forall x w a b, nth_error T x = Some (i, a) -> x <= y -> nth_error T w = Some (S i, b) -> z <= w -> hb T x w.
Proof.
  intros l tr T s H i k y z Hy Hz x w a b Hx Lx Hw Lw. pose proof (F_all _ _ _ (chain_n _ _ _ _ H)) as HF.
  pose proof (put_get _ _ _ _ _ (f_fe _ _ HF) Hy Hz) as B. destruct Hy as ((t & c & Ny & n & ->) & _), Hz as ((u & d & Nz & ->) & _).
  pose proof (f_put _ _ HF _ _ _ (nth_error_In _ _ Ny)) as ->. pose proof (f_get _ _ HF _ _ (nth_error_In _ _ Nz)) as ->.
  assert (B2 : hb T x z) by (destruct (Nat.eq_dec x y) as [->|N]; [exact B|eapply hb_tr; [eapply hb_po; [|exact Hx|exact Ny]; lia|exact B]]).
  destruct (Nat.eq_dec z w) as [->|N]; [exact B2|]. eapply hb_tr; [exact B2|eapply hb_po; [|exact Nz|exact Hw]; lia].
Qed.
(** There is a k-th send for every k-th receive, and a close for every end that is seen. *)
Theorem C113_received : forall l tr T s, chains l tr T s -> forall i z, (forall k, kth (gets i) T k z -> exists y, kth (puts i) T k y /\ hb T y z) /\
  (forall u, nth_error T z = Some (u, AEnd i) -> exists y t, nth_error T y = Some (t, AClose i) /\ hb T y z).
Proof.
  intros l tr T s H i z. pose proof (f_fe _ _ (F_all _ _ _ (chain_n _ _ _ _ H))) as Fe. split; [intros k Hk; now apply get_put|intros u Hu; eapply end_close; eauto].
Qed.
(** What goroutine i has done up to the close of its channel is before what the next one does once it has seen the end. *)
Theorem C113_end : forall l tr T s, chains l tr T s -> forall i y z t u, nth_error T y = Some (t, AClose i) -> nth_error T z = Some (u, AEnd i) ->
  forall x w a b, nth_error T x = Some (i, a) -> x <= y -> nth_error T w = Some (S i, b) -> z <= w -> hb T x w.
Proof.
  intros l tr T s H i y z t u Ny Nz x w a b Hx Lx Hw Lw. pose proof (F_all _ _ _ (chain_n _ _ _ _ H)) as HF.
  pose proof (close_end _ _ _ _ _ _ (f_fe _ _ HF) Ny Nz) as B.
  pose proof (f_cls _ _ HF _ _ (nth_error_In _ _ Ny)) as ->. pose proof (f_end _ _ HF _ _ (nth_error_In _ _ Nz)) as ->.
  assert (B2 : hb T x z) by (destruct (Nat.eq_dec x y) as [->|N]; [exact B|eapply hb_tr; [eapply hb_po; [|exact Hx|exact Ny]; lia|exact B]]).
  destruct (Nat.eq_dec z w) as [->|N]; [exact B2|]. eapply hb_tr; [exact B2|eapply hb_po; [|exact Nz|exact Hw]; lia].
Qed.
(** Who does what: goroutine i alone sends on and closes channel i, the next one alone receives from it. *)
Theorem C113_ends : forall l tr T s, chains l tr T s -> forall t i,
  (forall n, In (t, APut i n) T -> t = i) /\ (In (t, AClose i) T -> t = i) /\ (In (t, AGet i) T -> t = S i) /\ (In (t, AEnd i) T -> t = S i).
Proof. intros l tr T s H t i. pose proof (F_all _ _ _ (chain_n _ _ _ _ H)) as [_ _ _ A B C D]. repeat split; eauto. Qed.
(** When all the goroutines are calm and the caller sees the end of the last stream, everything any of them ever does is before it. *)
Theorem C113_done : forall l tr T s, calm_chain l -> chains l tr T s -> forall z, nth_error T z = Some (length l, AEnd (length l - 1)) ->
  forall x t a, nth_error T x = Some (t, a) -> t < length l -> hb T x z.
Proof.
  intros l tr T s Cl H z Hz x t a Hx Lt.
  assert (H' : traced (fun s => exists l, calm_chain l /\ s = start l) nstep n_acts tr T s /\ length s = length l).
  { clear - H Cl. induction H as [s ->|tr T s lab s' _ [IH1 IH2] St]; [split; [constructor; now exists l|unfold start; now rewrite map_length]|].
    split; [econstructor; eauto|]. rewrite <- IH2. destruct St; rewrite ?app_length; reflexivity. }
  destruct H' as [R Len]. destruct (G_all _ _ _ R) as [_ HG]. apply (g_en _ _ HG (length l - 1) z) with t a; [lia| |exact Hx|lia].
  replace (S (length l - 1)) with (length l) by lia. exact Hz.
Qed.
End Props.

(** The operators are calm: all of one goroutine but Limit.  Sources only send and close. *)
Section Calm.
Context {A : Type}.
Notation P := (proc (item A) (call A)).
Lemma after_sends : forall l : list (item A), after (sends l (PClose PEnd) : P).
Proof. induction l; cbn; [apply af_close|now apply af_send]. Qed.
Lemma calm_collect : forall (k : list (item A) -> P), (forall l, after (k l)) -> forall acc, calm (collect acc k).
Proof. intros k Hk. cofix IH. intros acc. rewrite (frob_eq (collect acc k)). cbn. apply ca_recv; [intros v; apply IH|apply Hk]. Qed.
Theorem C113_calm : forall (f : item A -> nat) (n : Z),
  Forall (fun b => forall p c, b = BStage p c -> calm p) [Distinct f; Buffer n; Split n; SplitSteam n; Tail n; Skip n; Merge; Peek].
Proof.
  intros f n. repeat apply Forall_cons; [..|apply Forall_nil].
  - intros p c Eq. injection Eq as <- <-. generalize (@nil nat). cofix IH. intros u. rewrite (frob_eq (distinct f u)). cbn. apply ca_recv; [|apply af_close]. intros v. destruct (mem (f v) u); cbn; [apply IH|apply ca_send; apply IH].
  - intros p c Eq. injection Eq as <- <-. cofix IH. rewrite (frob_eq copy_loop). cbn. apply ca_recv; [|apply af_close]. intros v. apply ca_send. apply IH.
  - intros p c Eq. unfold Split in Eq. destruct (n <? 1)%Z; [discriminate|]. injection Eq as <- <-. generalize (@nil (item A)). cofix IH. intros u. rewrite (frob_eq (split_loop n u)). cbn. apply ca_recv; [|destruct u; repeat constructor]. intros v. destruct (zlen (u ++ [v]) =? n)%Z; [apply ca_send; apply IH|apply IH].
  - intros p c Eq. unfold SplitSteam in Eq. destruct (n <? 1)%Z; [discriminate|]. injection Eq as <- <-. generalize (@nil (item A)). cofix IH. intros u. rewrite (frob_eq (splitsteam_loop n u)). cbn. apply ca_recv; [|destruct (negb (zlen u =? 0)%Z); repeat constructor]. intros v. destruct (zlen u <? n)%Z; [|apply ca_dead]. destruct (zlen (u ++ [v]) =? n)%Z; [apply ca_send; apply ca_call; apply IH|apply IH].
  - intros p c Eq. unfold Tail in Eq. destruct (n <=? 0)%Z; [destruct (n =? 0)%Z; discriminate|]. injection Eq as <- <-. generalize (newRing (@INil A) n). cofix IH. intros u. rewrite (frob_eq (tail_loop u)). cbn. apply ca_recv; [|destruct (Take u); [apply after_sends|apply af_dead]]. intros v. destruct (Add u v); [apply IH|apply ca_dead].
  - intros p c Eq. unfold Skip in Eq. destruct (n <? 0)%Z; [discriminate|]. destruct (n =? 0)%Z; [discriminate|]. injection Eq as <- <-. generalize 0%Z. cofix IH. intros u. rewrite (frob_eq (skip_loop n u)). cbn. apply ca_recv; [|apply af_close]. intros v. destruct (u >=? n)%Z; [apply ca_send; apply IH|apply IH].
  - intros p c Eq. injection Eq as <- <-. apply calm_collect. intros l. repeat constructor.
  - intros p c Eq. injection Eq as <- <-. cofix IH. rewrite (frob_eq peek_loop). cbn. apply ca_recv; [|apply af_close]. intros v. apply ca_send. apply ca_call. apply IH.
Qed.
Theorem C113_calm_sorted : forall slice : list (item A) -> list (item A), calm (Sort slice) /\ calm (Reverse : P).
Proof.
  intros slice. split; apply calm_collect; intros l; [apply after_sends|]. destruct (rev_loop l _); [apply after_sends|apply af_dead].
Qed.
Theorem C113_sources : forall items : list (item A), after (fst (Of items)) /\ after (fst (From items)).
Proof. intros items. split; apply after_sends. Qed.
End Calm.

(** Peek sends the item on before it calls f on it: f and the user of the next stage run on the same item unordered. *)
Definition x7 : item nat := IAtom 7.
Definition peek_chain : list (proc (item nat) (call nat) * nat) := [(fst (From [x7]), 0); (peek_loop, 0); (Foreach, 0)].
Definition o : chan (item nat) := Ch 0 [] false.
Lemma peek_eq : (peek_loop : proc (item nat) (call nat)) = PRecv (fun o => match o with Some x => PSend x (PCall (CallF x) peek_loop) | None => PClose PEnd end).
Proof. etransitivity; [apply frob_eq|reflexivity]. Qed.
Lemma foreach_eq : (foreach_loop : proc (item nat) (call nat)) = PRecv (fun o => match o with Some x => PCall (CallF x) foreach_loop | None => PCall RetU PEnd end).
Proof. etransitivity; [apply frob_eq|reflexivity]. Qed.
Lemma limit_eq : (limit_loop 1 : proc (item nat) (call nat)) = PRecv (fun o => match o with Some x => PSend x (PClose (limit_loop 0)) | None => PClose PEnd end).
Proof. etransitivity; [apply frob_eq|reflexivity]. Qed.
Lemma peek_trace : chains peek_chain [THand 0 x7; THand 1 x7; TCall 1 (CallF x7); TCall 2 (CallF x7)]
  [(0, APut 0 0); (1, AGet 0); (1, APut 1 0); (2, AGet 1); (1, ALab (CallF x7)); (2, ALab (CallF x7))] [(PClose PEnd, o); (peek_loop, o); (foreach_loop, o)].
Proof.
  assert (H : chains peek_chain [] [] (start peek_chain)) by now constructor.
  assert (H1 : chains peek_chain [THand 0 x7] [(0, APut 0 0); (1, AGet 0)] [(PClose PEnd, o); (PSend x7 (PCall (CallF x7) peek_loop), o); (foreach_loop, o)]).
  { refine (tr_snoc _ _ _ _ _ _ _ _ H _). unfold peek_chain, start. cbn. rewrite peek_eq at 1. apply (NHand [] (PClose PEnd) x7). }
  assert (H2 : chains peek_chain [THand 0 x7; THand 1 x7] [(0, APut 0 0); (1, AGet 0); (1, APut 1 0); (2, AGet 1)] [(PClose PEnd, o); (PCall (CallF x7) peek_loop, o); (PCall (CallF x7) foreach_loop, o)]).
  { refine (tr_snoc _ _ _ _ _ _ _ _ H1 _). rewrite foreach_eq at 1. apply (NHand [(PClose PEnd, o)] (PCall (CallF x7) peek_loop) x7). }
  assert (H3 := tr_snoc _ _ _ _ _ _ _ _ H2 (NCall [(PClose PEnd, o)] (CallF x7) peek_loop o [(PCall (CallF x7) foreach_loop, o)])).
  exact (tr_snoc _ _ _ _ _ _ _ _ H3 (NCall [(PClose PEnd, o); (peek_loop, o)] (CallF x7) foreach_loop o [])).
Qed.
Theorem C113_peek_witness : exists tr T s i j, chains peek_chain tr T s /\ i < j /\
  nth_error T i = Some (1, ALab (CallF x7)) /\ nth_error T j = Some (2, ALab (CallF x7)) /\ ~ hb T i j.
Proof.
  eexists _, _, _, 4, 5. split; [exact peek_trace|]. split; [lia|]. split; [reflexivity|]. split; [reflexivity|].
  set (T := [(0, APut 0 0); (1, AGet 0); (1, APut 1 0); (2, AGet 1); (1, ALab (CallF x7)); (2, ALab (CallF x7))]).
  assert (Q : forall i j, hb T i j -> i = 4 -> False); [|intros B; exact (Q _ _ B eq_refl)].
  intros i j Hh. induction Hh as [i j t a b Hl Hi Hj|i j t u a b Hl Hi Hj Hp|i j t u a b x Hl Hi Hj Ha Hw _ _ _|i j c k Hl ((t & a & Hi & c9 & ->) & _)|i j c k n9 u Hl ((t & a & Hi & ->) & _)|i j k H1 I1 H2 I2]; [| | | | |exact I1]; intros ->; try discriminate.
  - injection Hi as <- <-. do 5 (destruct j as [|j]; [lia|]). destruct j as [|j]; [discriminate Hj|]. destruct j; discriminate Hj.
  - injection Hi as <- <-. inversion Hp.
  - injection Hi as <- <-. destruct Ha.
Qed.
(** Limit closes its stream while its input is still being read: the caller sees the end, and Peek's call of f on the item
    the caller has got comes after. *)
Definition limit_chain : list (proc (item nat) (call nat) * nat) := [(fst (From [x7]), 0); (peek_loop, 0); (limit_loop 1, 0)].
Theorem C113_limit_witness : exists tr T s, chains limit_chain tr T s /\ exists y z x, y < z < x /\
  nth_error T y = Some (3, AGet 2) /\ nth_error T z = Some (3, AEnd 2) /\ nth_error T x = Some (1, ALab (CallF x7)).
Proof.
  assert (H : chains limit_chain [] [] (start limit_chain)) by now constructor.
  assert (H1 : chains limit_chain [THand 0 x7] [(0, APut 0 0); (1, AGet 0)] [(PClose PEnd, o); (PSend x7 (PCall (CallF x7) peek_loop), o); (limit_loop 1, o)]).
  { refine (tr_snoc _ _ _ _ _ _ _ _ H _). unfold limit_chain, start. cbn. rewrite peek_eq at 1. apply (NHand [] (PClose PEnd) x7). }
  assert (H2 : chains limit_chain [THand 0 x7; THand 1 x7] [(0, APut 0 0); (1, AGet 0); (1, APut 1 0); (2, AGet 1)] [(PClose PEnd, o); (PCall (CallF x7) peek_loop, o); (PSend x7 (PClose (limit_loop 0)), o)]).
  { refine (tr_snoc _ _ _ _ _ _ _ _ H1 _). rewrite limit_eq at 1. apply (NHand [(PClose PEnd, o)] (PCall (CallF x7) peek_loop) x7). }
  assert (H3 := tr_snoc _ _ _ _ _ _ _ _ H2 (NOutHand [(PClose PEnd, o); (PCall (CallF x7) peek_loop, o)] x7 (PClose (limit_loop 0)))).
  assert (H4 := tr_snoc _ _ _ _ _ _ _ _ H3 (NClose [(PClose PEnd, o); (PCall (CallF x7) peek_loop, o)] (limit_loop 0) 0 [] [])).
  assert (H5 := tr_snoc _ _ _ _ _ _ _ _ H4 (NOutEnd [(PClose PEnd, o); (PCall (CallF x7) peek_loop, o)] (limit_loop 0) 0)).
  assert (H6 := tr_snoc _ _ _ _ _ _ _ _ H5 (NCall [(PClose PEnd, o)] (CallF x7) peek_loop o [(limit_loop 0, Ch 0 [] true)])).
  eexists _, _, _. split; [exact H6|]. exists 5, 7, 8. repeat split; lia.
Qed.
(** A calm chain that runs to its end: the item goes through Peek to the caller, who sees the end; f is before it. *)
Definition calm_ex : list (proc (item nat) (call nat) * nat) := [(fst (From [x7]), 0); (peek_loop, 0)].
Example C113_ex : calm_chain calm_ex /\ exists tr T s, chains calm_ex tr T s /\ exists y x z, kth (gets 1) T 0 y /\ y < x < z /\
  nth_error T x = Some (1, ALab (CallF x7)) /\ nth_error T z = Some (length calm_ex, AEnd (length calm_ex - 1)).
Proof.
  split.
  { split; [left; apply (C113_sources [x7])|]. constructor; [|constructor]. cbn [fst]. pose proof (C113_calm (fun _ : item nat => 0) 0) as C. rewrite Forall_forall in C. apply (C Peek) with 0; [cbn; tauto|reflexivity]. }
  assert (H : chains calm_ex [] [] (start calm_ex)) by now constructor.
  assert (H1 : chains calm_ex [THand 0 x7] [(0, APut 0 0); (1, AGet 0)] [(PClose PEnd, o); (PSend x7 (PCall (CallF x7) peek_loop), o)]).
  { refine (tr_snoc _ _ _ _ _ _ _ _ H _). unfold calm_ex, start. cbn. rewrite peek_eq at 1. apply (NHand [] (PClose PEnd) x7). }
  assert (H2 := tr_snoc _ _ _ _ _ _ _ _ H1 (NOutHand [(PClose PEnd, o)] x7 (PCall (CallF x7) peek_loop))).
  assert (H3 := tr_snoc _ _ _ _ _ _ _ _ H2 (NCall [(PClose PEnd, o)] (CallF x7) peek_loop o [])).
  assert (H4 := tr_snoc _ _ _ _ _ _ _ _ H3 (NClose [] PEnd 0 [] [(peek_loop, o)])).
  cbn [app length n_acts] in H4. rewrite peek_eq in H4.
  assert (H5 := tr_snoc _ _ _ _ _ _ _ _ H4 (NRecvEnd [] PEnd 0 _ o [])).
  assert (H6 := tr_snoc _ _ _ _ _ _ _ _ H5 (NClose [(PEnd, Ch 0 [] true)] PEnd 0 [] [])).
  assert (H7 := tr_snoc _ _ _ _ _ _ _ _ H6 (NOutEnd [(PEnd, Ch 0 [] true)] PEnd 0)).
  eexists _, _, _. split; [exact H7|]. exists 3, 4, 8. split; [|repeat split; lia].
  split; [eexists _, _; split; reflexivity|]. cbn [app firstn length n_acts].
  apply (c_no _ [_; _] _ _ 0); [apply (c_no _ [_] _ _ 0); [apply (c_no _ [] _ _ 0); [constructor|]|]|]; discriminate.
Qed.
Print Assumptions C113_feasible.
Print Assumptions C113_item.
Print Assumptions C113_received.
Print Assumptions C113_end.
Print Assumptions C113_ends.
Print Assumptions C113_done.
Print Assumptions C113_calm.
Print Assumptions C113_calm_sorted.
Print Assumptions C113_sources.
Print Assumptions C113_peek_witness.
Print Assumptions C113_limit_witness.
Print Assumptions C113_ex.
