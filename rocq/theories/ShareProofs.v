(** * Proofs about streams with several readers *)
From Coq Require Import List Bool Arith ZArith Lia.
From Verif Require Import GoBase Trans NetModel NetSpec XStreamModel ShareModel ShareSpec.
Import ListNotations.
Open Scope nat_scope.

Lemma subseq_nil : forall X (l : list X), subseq [] l.
Proof. induction l; constructor; auto. Qed.
Lemma subseq_refl : forall X (l : list X), subseq l l.
Proof. induction l; [apply sub_nil|apply sub_take; auto]. Qed.
Lemma subseq_app : forall X (a b c d : list X), subseq a b -> subseq c d -> subseq (a ++ c) (b ++ d).
Proof. intros X a b c d H K. induction H; cbn; [auto|apply sub_skip; auto|apply sub_take; auto]. Qed.
Lemma subseq_app_r : forall X (a b c : list X), subseq a b -> subseq a (b ++ c).
Proof. intros X a b c H. rewrite <- (app_nil_r a). apply subseq_app; auto. apply subseq_nil. Qed.
Lemma subseq_nil_inv : forall X (l : list X), subseq l [] -> l = [].
Proof. intros X l H. inversion H; auto. Qed.

Lemma nth_app_mid : forall X (l : list X) x y r j p, nth_error (l ++ x :: r) j = Some p ->
  (j = length l /\ p = x /\ nth_error (l ++ y :: r) j = Some y) \/ (j <> length l /\ nth_error (l ++ y :: r) j = Some p).
Proof.
  intros X l x y r j p H. destruct (Nat.eq_dec j (length l)) as [->|N].
  - left. rewrite nth_error_app2, Nat.sub_diag in H |- * by lia. cbn in *. now inversion H.
  - right. split; auto. destruct (Nat.lt_ge_cases j (length l)).
    + rewrite nth_error_app1 in H |- * by lia. auto.
    + rewrite nth_error_app2 in H |- * by lia. destruct (j - length l) as [|i] eqn:Q; [lia|auto].
Qed.

Section Generic.
Context {V E : Type}.
Variable fork : E -> option (proc V E).
Notation P := (proc V E). Notation hstep := (hstep fork). Notation hlabel := (hlabel V E).

(** ** The channel *)
Lemma src_inv : forall xs n R tr q c R', steps hstep (shared xs n R) tr ((q, c), R') ->
  exists rs, ccap c = n /\ length (cbuf c) <= n /\ xs = taken tr ++ cbuf c ++ rs /\
    ((q = source rs /\ ccl c = false) \/ (q = PEnd /\ ccl c = true /\ rs = [])).
Proof.
  intros xs n R tr q c R' H. remember ((q, c), R') as s eqn:Q. revert q c R' Q.
  induction H as [|tr s1 l s2 H IH St]; intros q c R' Q.
  - inversion Q; subst. exists xs. cbn. repeat split; auto; lia.
  - destruct s1 as ((q1 & c1) & R1). destruct (IH _ _ _ eq_refl) as (rs & A & B & C & D). clear IH.
    unfold taken in *. rewrite flat_map_app. cbn [flat_map].
    subst s2; inversion St; subst; cbn in *.
    + destruct D as [[D F]|[D F]]; [|discriminate]. destruct rs as [|v' rs]; [discriminate|]. inversion D; subst.
      exists rs. repeat split; auto; [rewrite app_length; cbn; lia|]. rewrite app_nil_r, <- !app_assoc. reflexivity.
    + destruct D as [[D F]|[D F]]; [|discriminate]. destruct rs as [|v' rs]; [|discriminate]. inversion D; subst.
      exists []. repeat split; auto. now rewrite !app_nil_r.
    + destruct D as [[D F]|[D F]]; [|discriminate]. destruct rs as [|v' rs]; [discriminate|]. inversion D; subst.
      exists rs. repeat split; auto. now rewrite <- app_assoc.
    + exists rs. repeat split; auto; [lia|]. now rewrite <- app_assoc.
    + exists rs. rewrite app_nil_r. repeat split; auto.
    + exists rs. rewrite app_nil_r. repeat split; auto.
    + exists rs. rewrite app_nil_r. repeat split; auto.
Qed.

Lemma taken_app : forall a b : list hlabel, taken (a ++ b) = taken a ++ taken b.
Proof. intros. apply flat_map_app. Qed.
Lemma taken_by_app : forall j (a b : list hlabel), taken_by j (a ++ b) = taken_by j a ++ taken_by j b.
Proof. intros. apply flat_map_app. Qed.
Lemma taken_by_sub : forall j (tr : list hlabel), subseq (taken_by j tr) (taken tr).
Proof.
  induction tr as [|l tr IH]; [constructor|]. destruct l as [|i [v|]|i e]; cbn; auto.
  destruct (i =? j); cbn; [apply sub_take|apply sub_skip]; auto.
Qed.

Lemma seen_end : forall xs n R tr1 j tr2 s, steps hstep (shared xs n R) (tr1 ++ HGet j None :: tr2) s ->
  taken tr1 = xs /\ taken tr2 = [].
Proof.
  intros xs n R tr1 j tr2 ((q & c) & R') H.
  destruct (src_inv _ _ _ _ _ _ _ H) as (rs & _ & _ & T & _).
  apply steps_app_inv in H as (((q1 & c1) & R1) & H1 & H2).
  change (HGet j None :: tr2) with ([HGet (E := E) j (@None V)] ++ tr2) in H2.
  apply steps_app_inv in H2 as (s2 & H2 & H3).
  destruct (src_inv _ _ _ _ _ _ _ H1) as (rs1 & _ & _ & T1 & D).
  rewrite taken_app in T. cbn [taken flat_map app] in T. pose proof (eq_trans (eq_sym T1) T) as K. clear T.
  assert (B : cbuf c1 = [] /\ ccl c1 = true).
  { clear -H2. inversion H2 as [|tr s3 l s4 X St Y Z]; subst. destruct tr as [|? tr]; [|destruct tr; discriminate]. inversion Y; subst.
    inversion X; subst; [|destruct tr; discriminate]. inversion St; subst; auto. }
  destruct B as [B1 B2]. destruct D as [[_ D]|(_ & _ & ->)]; [congruence|]. rewrite B1 in *. cbn [app] in *. rewrite app_nil_r in T1.
  split; auto. rewrite app_nil_r in K. fold (taken tr2) in K. apply (f_equal (@length V)) in K. rewrite !app_length in K. destruct (taken tr2); auto; cbn in K; lia.
Qed.

(** ** What a reader does *)
Inductive ract := RG (o : option V) | RE (e : E).
Definition view (j : nat) (tr : list hlabel) : list ract :=
  flat_map (fun l => match l with HGet i o => if i =? j then [RG o] else [] | HDo i e => if i =? j then [RE e] else [] | HSrc => [] end) tr.
Definition gots (a : list ract) : list V := flat_map (fun x => match x with RG (Some v) => [v] | _ => [] end) a.
Inductive ran : P -> list ract -> P -> Prop :=
| ran_nil : forall p, ran p [] p
| ran_get : forall k o a p, ran (k o) a p -> ran (PRecv k) (RG o :: a) p
| ran_do : forall e q a p, ran q a p -> ran (PCall e q) (RE e :: a) p.
Definition wf (a : list ract) : Prop := forall a1 a2, a = a1 ++ RG None :: a2 -> gots a2 = [].

Lemma ran_app : forall p a q b r, ran p a q -> ran q b r -> ran p (a ++ b) r.
Proof. intros p a q b r H. induction H; intros; cbn; auto; constructor; auto. Qed.
Lemma view_app : forall j (a b : list hlabel), view j (a ++ b) = view j a ++ view j b.
Proof. intros. apply flat_map_app. Qed.
Lemma gots_app : forall a b, gots (a ++ b) = gots a ++ gots b.
Proof. intros. apply flat_map_app. Qed.
Lemma gots_view : forall j (tr : list hlabel), gots (view j tr) = taken_by j tr.
Proof.
  induction tr as [|l tr IH]; auto. destruct l as [|i [v|]|i e]; cbn; auto; destruct (i =? j); cbn [app gots flat_map]; auto.
  change (v :: gots (view j tr) = v :: taken_by j tr). now rewrite IH.
Qed.

Lemma reader_inv : forall s R tr s' R', steps hstep (s, R) tr (s', R') ->
  forall j p, nth_error R j = Some p -> exists p', nth_error R' j = Some p' /\ ran p (view j tr) p'.
Proof.
  intros s R tr s' R' H. remember (s', R') as z eqn:Q. revert s' R' Q.
  induction H as [|tr s1 l s2 H IH St]; intros s' R' Q j p Hj.
  - inversion Q; subst. exists p. split; auto. constructor.
  - destruct s1 as (s1 & R1). destruct (IH _ _ eq_refl _ _ Hj) as (p1 & A & B). clear IH.
    rewrite view_app. cbn [view flat_map]. rewrite app_nil_r.
    subst s2; inversion St; subst; try (rewrite app_nil_r; exists p1; now auto).
    + destruct (nth_app_mid _ _ _ (k (Some v)) _ _ _ A) as [(-> & -> & A')|(N & A')].
      * exists (k (Some v)). split; auto. rewrite Nat.eqb_refl. eapply ran_app; [exact B|repeat constructor].
      * exists p1. split; auto. apply Nat.neq_sym, Nat.eqb_neq in N. rewrite N, app_nil_r. exact B.
    + destruct (nth_app_mid _ _ _ (k (Some v)) _ _ _ A) as [(-> & -> & A')|(N & A')].
      * exists (k (Some v)). split; auto. rewrite Nat.eqb_refl. eapply ran_app; [exact B|repeat constructor].
      * exists p1. split; auto. apply Nat.neq_sym, Nat.eqb_neq in N. rewrite N, app_nil_r. exact B.
    + destruct (nth_app_mid _ _ _ (k None) _ _ _ A) as [(-> & -> & A')|(N & A')].
      * exists (k None). split; auto. rewrite Nat.eqb_refl. eapply ran_app; [exact B|repeat constructor].
      * exists p1. split; auto. apply Nat.neq_sym, Nat.eqb_neq in N. rewrite N, app_nil_r. exact B.
    + destruct (nth_app_mid _ _ _ p0 _ _ _ A) as [(-> & -> & A')|(N & A')].
      * exists p0. split; auto. rewrite Nat.eqb_refl. eapply ran_app; [exact B|repeat constructor].
      * exists p1. split; auto. apply Nat.neq_sym, Nat.eqb_neq in N. rewrite N, app_nil_r. exact B.
    + destruct (nth_app_mid _ _ _ p0 _ _ _ A) as [(-> & -> & A')|(N & A')].
      * exists p0. split. { rewrite app_comm_cons, app_assoc, nth_error_app1; auto. rewrite app_length. cbn. lia. }
        rewrite Nat.eqb_refl. eapply ran_app; [exact B|repeat constructor].
      * exists p1. split. { rewrite app_comm_cons, app_assoc, nth_error_app1; auto. apply nth_error_Some. congruence. }
        apply Nat.neq_sym, Nat.eqb_neq in N. rewrite N, app_nil_r. exact B.
Qed.

Lemma view_split : forall j (tr : list hlabel) a1 x a2, view j tr = a1 ++ x :: a2 ->
  exists t1 l t2, tr = t1 ++ l :: t2 /\ view j t1 = a1 /\ view j [l] = [x] /\ view j t2 = a2.
Proof.
  induction tr as [|l tr IH]; intros a1 x a2 H; [destruct a1; discriminate|].
  change (l :: tr) with ([l] ++ tr) in H. rewrite view_app in H.
  assert (Q : view j [l] = [] \/ exists y, view j [l] = [y]).
  { destruct l as [|i o|i e]; cbn; auto; destruct (i =? j); cbn; eauto. }
  destruct Q as [Q|(y & Q)]; rewrite Q in H.
  - destruct (IH _ _ _ H) as (t1 & l' & t2 & -> & A & B & C). exists (l :: t1), l', t2. repeat split; auto.
    change (l :: t1) with ([l] ++ t1). now rewrite view_app, Q.
  - destruct a1 as [|z a1]; inversion H; subst.
    + exists [], l, tr. auto.
    + destruct (IH _ _ _ H2) as (t1 & l' & t2 & -> & A & B & C). exists (l :: t1), l', t2. repeat split; auto.
      change (l :: t1) with ([l] ++ t1). now rewrite view_app, Q, A.
Qed.
Lemma view_wf : forall xs n R tr s j, steps hstep (shared xs n R) tr s -> wf (view j tr).
Proof.
  intros xs n R tr s j H a1 a2 Q. destruct (view_split _ _ _ _ _ Q) as (t1 & l & t2 & -> & _ & B & <-).
  destruct l as [|i o|i e]; cbn in B; [discriminate| |destruct (i =? j); discriminate].
  destruct (i =? j); [|discriminate]. inversion B; subst. apply seen_end in H as [_ H].
  rewrite gots_view. apply subseq_nil_inv. rewrite <- H. apply taken_by_sub.
Qed.

(** ** Readers that stop after the end *)
CoInductive pot : nat -> P -> Prop :=
| pot_end : forall m, pot m PEnd
| pot_call : forall m m' e p, fork e = None -> S m <= m' -> pot m p -> pot m' (PCall e p)
| pot_fork : forall m d m' e q p, fork e = Some q -> S (m + d) <= m' -> pot d q -> pot m p -> pot m' (PCall e p)
| pot_recv : forall m m' k, S m <= m' -> (forall v, pot (m + 2) (k (Some v))) -> pot m (k None) -> pot m' (PRecv k).

Lemma Forall2_mid : forall (Q : nat -> P -> Prop) ms l x r, Forall2 Q ms (l ++ x :: r) ->
  exists ml m mr, ms = ml ++ m :: mr /\ Forall2 Q ml l /\ Q m x /\ Forall2 Q mr r.
Proof.
  intros Q ms l x r H. apply Forall2_app_inv_r in H as (ml & mr & A & B & ->).
  inversion B; subst. exists ml, x0, l0. auto.
Qed.
Lemma Forall2_put : forall (Q : nat -> P -> Prop) ml l m x mr r, Forall2 Q ml l -> Q m x -> Forall2 Q mr r -> Forall2 Q (ml ++ m :: mr) (l ++ x :: r).
Proof. intros. apply Forall2_app; auto. Qed.
Fixpoint tot (l : list nat) : nat := match l with [] => 0 | x :: r => x + tot r end.
Lemma sum_app : forall a b, tot (a ++ b) = tot a + tot b.
Proof. induction a; intros; cbn [tot app]; auto. rewrite IHa. lia. Qed.

Lemma pot_inv : forall xs n R ms0 tr q c R', Forall2 pot ms0 R -> steps hstep (shared xs n R) tr ((q, c), R') ->
  exists ms rs, Forall2 pot ms R' /\ ((q = source rs /\ ccl c = false) \/ (q = PEnd /\ ccl c = true /\ rs = [])) /\
    length tr + 3 * length rs + 2 * length (cbuf c) + (if ccl c then 0 else 1) + tot ms <= 3 * length xs + 1 + tot ms0.
Proof.
  intros xs n R ms0 tr q c R' H0 H. remember ((q, c), R') as s eqn:Q. revert q c R' Q.
  induction H as [|tr s1 l s2 H IH St]; intros q c R' Q.
  - inversion Q; subst. exists ms0, xs. cbn [cbuf ccl length]. repeat split; auto. lia.
  - destruct s1 as ((q1 & c1) & R1). destruct (IH _ _ _ eq_refl) as (ms & rs & A & D & C). clear IH.
    rewrite app_length. cbn [length].
    subst s2; inversion St; subst; cbn [cbuf ccl] in *.
    + destruct D as [[D F]|[D F]]; [|discriminate]. destruct rs as [|v' rs]; [discriminate|]. inversion D; subst.
      exists ms, rs. rewrite app_length. cbn [length] in *. repeat split; auto; lia.
    + destruct D as [[D F]|[D F]]; [|discriminate]. destruct rs as [|v' rs]; [|discriminate]. inversion D; subst.
      exists ms, []. repeat split; auto. lia.
    + destruct D as [[D F]|[D F]]; [|discriminate]. destruct rs as [|v' rs]; [discriminate|]. inversion D; subst.
      apply Forall2_mid in A as (ml & m & mr & -> & A & B & A'). inversion B as [| | |m1 m2 k' L G1 G2]; subst.
      exists (ml ++ (m1 + 2) :: mr), rs. rewrite !sum_app in *. cbn [tot length] in *. repeat split; auto; [apply Forall2_put; auto|]. lia.
    + apply Forall2_mid in A as (ml & m & mr & -> & A & B & A'). inversion B as [| | |m1 m2 k' L G1 G2]; subst.
      exists (ml ++ (m1 + 2) :: mr), rs. rewrite !sum_app in *. cbn [tot length] in *. repeat split; auto; [apply Forall2_put; auto|]. lia.
    + apply Forall2_mid in A as (ml & m & mr & -> & A & B & A'). inversion B as [| | |m1 m2 k' L G1 G2]; subst.
      exists (ml ++ m1 :: mr), rs. rewrite !sum_app in *. cbn [tot length] in *. repeat split; auto; [apply Forall2_put; auto|]. lia.
    + apply Forall2_mid in A as (ml & m & mr & -> & A & B & A'). inversion B as [|m1 m2 e' p' F L G|m1 d m2 e' q' p' F L G1 G2|]; subst; [|congruence].
      exists (ml ++ m1 :: mr), rs. rewrite !sum_app in *. cbn [tot length] in *. repeat split; auto; [apply Forall2_put; auto|]. lia.
    + apply Forall2_mid in A as (ml & m & mr & -> & A & B & A'). inversion B as [|m1 m2 e' p' F L G|m1 d m2 e' q' p' F L G1 G2|]; subst; [congruence|].
      replace q' with q0 in * by congruence.
      exists (ml ++ m1 :: mr ++ [d]), rs. rewrite !sum_app in *. cbn [tot length] in *. rewrite sum_app. cbn [tot]. repeat split; auto; [|lia].
      apply Forall2_put; auto. apply Forall2_app; auto.
Qed.

Definition moves (s : stage V E * list P) : Prop := exists l s', hstep s l s'.
Lemma go_on : forall xs n R ms0 tr s, Forall2 pot ms0 R -> steps hstep (shared xs n R) tr s ->
  moves s \/ (Forall (fun p => p = PEnd) (snd s) /\ (taken tr = xs -> fst (fst s) = PEnd)).
Proof.
  intros xs n R ms0 tr ((q & c) & R') H0 H. cbn [fst snd].
  destruct (pot_inv _ _ _ _ _ _ _ _ H0 H) as (ms & _ & A & _).
  destruct (src_inv _ _ _ _ _ _ _ H) as (rs & Cn & Lb & T & D).
  assert (K : Forall (fun p => p = PEnd) R' \/ exists l p r, R' = l ++ p :: r /\ p <> PEnd).
  { clear -R'. induction R' as [|p R IH]; auto. destruct p; try (right; eexists [], _, R; split; [reflexivity|discriminate]).
    destruct IH as [IH|(l & p & r & -> & N)]; [left; auto|right; exists (PEnd :: l), p, r; auto]. }
  destruct K as [K|(l & p & r & -> & N)].
  - destruct D as [[-> F]|(-> & _)]; [|right; split; auto].
    destruct rs as [|v rs].
    + left. destruct c as [n' b cl]. cbn in F. subst. eexists _, _. apply HClose.
    + right. split; auto. intros E0. exfalso. rewrite <- E0 in T at 1. apply (f_equal (@length V)) in T. rewrite !app_length in T. cbn in T. lia.
  - left. apply Forall2_mid in A as (ml & m & mr & -> & A & B & A'). destruct c as [n' b cl]. cbn in *. subst n'.
    inversion B as [|m1 m2 e' p' F L G|m1 d m2 e' q' p' F L G1 G2|m1 m2 k' L G1 G2]; subst; [congruence| | |].
    + eexists _, _. now apply HCall.
    + eexists _, _. eapply HFork; exact F.
    + destruct b as [|v b]; [|eexists _, _; apply HRecv].
      destruct D as [[-> ->]|(-> & -> & ->)]; [|eexists _, _; apply HEnd].
      destruct rs as [|v rs]; [eexists _, _; apply HClose|].
      destruct n as [|n]; [eexists _, _; apply HHand|]. eexists _, _. apply HSend. cbn. lia.
Qed.

Lemma extend : forall xs n R ms0, Forall2 pot ms0 R -> forall k tr s, steps hstep (shared xs n R) tr s ->
  3 * length xs + 1 + tot ms0 <= length tr + k ->
  exists tr' s', steps hstep s tr' s' /\ Forall (fun p => p = PEnd) (snd s') /\ (taken (tr ++ tr') = xs -> fst (fst s') = PEnd).
Proof.
  intros xs n R ms0 H0. induction k as [|k IH]; intros tr s H L.
  - destruct (go_on _ _ _ _ _ _ H0 H) as [(l & s' & St)|[A B]].
    + destruct s' as ((q & c) & R'). destruct (pot_inv _ _ _ _ _ _ _ _ H0 (steps_snoc _ _ _ _ _ _ H St)) as (ms & rs & _ & _ & C).
      rewrite app_length in C. cbn [length] in C. lia.
    + exists [], s. rewrite app_nil_r. repeat split; auto. constructor.
  - destruct (go_on _ _ _ _ _ _ H0 H) as [(l & s' & St)|[A B]].
    + destruct (IH (tr ++ [l]) s') as (tr' & s2 & X & Y & Z); [econstructor; eauto|rewrite app_length; cbn; lia|].
      exists (l :: tr'), s2. rewrite <- app_assoc in Z. repeat split; auto. eapply steps_cons; eauto.
    + exists [], s. rewrite app_nil_r. repeat split; auto. constructor.
Qed.
End Generic.

Ltac rinv H Hr := inversion H as [|? ? ? ? Hr|? ? ? ? Hr]; subst; clear H.

Section Uses.
Context {A : Type}.
Notation item := (item A). Notation P := (proc item (ucall A)). Notation hstep := (hstep (forks (A := A))).
Notation pot := (pot (forks (A := A))). Notation uact := (ract (V := item) (E := ucall A)).

Lemma wf_tail : forall V E (a b : list (ract (V := V) (E := E))), wf (a ++ b) -> wf b.
Proof. intros V E a b H a1 a2 ->. apply (H (a ++ a1)). now rewrite app_assoc. Qed.
Lemma wf_none : forall V E (a b : list (ract (V := V) (E := E))), wf (a ++ b) -> In (RG None) a -> gots b = [].
Proof.
  intros V E a b H I. apply in_split in I as (x & y & ->). rewrite <- app_assoc in H. cbn in H.
  specialize (H _ _ eq_refl). rewrite gots_app in H. now apply app_eq_nil in H.
Qed.

(** ** Callers *)
Definition up (x : ract (V := item) (E := call A)) : uact := match x with RG o => RG o | RE c => RE (USaid c) end.
Definition evs (a : list (ract (V := item) (E := call A))) : list (call A) := flat_map (fun x => match x with RE c => [c] | _ => [] end) a.
Definition saids (a : list uact) : list (call A) := flat_map (fun x => match x with RE (USaid c) => [c] | _ => [] end) a.

Lemma gots_s : forall E v (a : list (ract (V := item) (E := E))), gots (RG (Some v) :: a) = v :: gots a. Proof. reflexivity. Qed.
Lemma gots_n : forall E (a : list (ract (V := item) (E := E))), gots (RG None :: a) = gots a. Proof. reflexivity. Qed.
Lemma gots_e : forall E e (a : list (ract (V := item) (E := E))), gots (RE e :: a) = gots a. Proof. reflexivity. Qed.
Lemma evs_g : forall o a, evs (RG o :: a) = evs a. Proof. reflexivity. Qed.
Lemma evs_e : forall e a, evs (RE e :: a) = e :: evs a. Proof. reflexivity. Qed.
Lemma saids_g : forall o a, saids (RG o :: a) = saids a. Proof. reflexivity. Qed.
Lemma saids_e : forall e a, saids (RE (USaid e) :: a) = e :: saids a. Proof. reflexivity. Qed.
Lemma saids_u : forall a, saids (RE UGo :: a) = saids a. Proof. reflexivity. Qed.
Hint Rewrite gots_s gots_n gots_e evs_g evs_e saids_g saids_e saids_u : sh.
Lemma saids_app : forall a b, saids (a ++ b) = saids a ++ saids b.
Proof. intros. apply flat_map_app. Qed.
Lemma saids_view : forall j tr, saids (view j tr) = said j tr.
Proof.
  induction tr as [|l tr IH]; auto. change (l :: tr) with ([l] ++ tr). rewrite view_app, saids_app, IH.
  unfold said. rewrite flat_map_app. f_equal. destruct l as [|i [v|]|i [c|]]; cbn; auto; destruct (i =? j); auto.
Qed.
Lemma up_saids : forall a, saids (map up a) = evs a.
Proof. induction a as [|[o|c] a IH]; cbn; auto. now f_equal. Qed.
Lemma up_gots : forall a, gots (map up a) = gots a.
Proof. induction a as [|[[v|]|c] a IH]; cbn; auto. now f_equal. Qed.
Lemma up_go : forall a, ~ In (RE UGo) (map up a).
Proof. intros a H. apply in_map_iff in H as ([o|c] & Q & _); discriminate. Qed.

Lemma thenp_end : forall next : P, thenp PEnd next = next.
Proof. intros next. rewrite (frob_eq (thenp PEnd next)). destruct next; reflexivity. Qed.

Lemma thenp_ran : forall (next : P) a p p', ran (thenp p next) a p' ->
  (exists a0 p0, a = map up a0 /\ ran p a0 p0 /\ p' = thenp p0 next /\ p0 <> PEnd) \/
  (exists a1 a2, a = map up a1 ++ a2 /\ ran p a1 PEnd /\ ran next a2 p').
Proof.
  intros next. induction a as [|x a IH]; intros p p' H.
  - inversion H; subst. destruct p; try (left; eexists [], _; split; [reflexivity|split; [constructor|split; [reflexivity|discriminate]]]).
    right. exists [], []. rewrite thenp_end. repeat split; constructor.
  - assert (Z : p = PEnd \/ p <> PEnd) by (destruct p; auto; right; discriminate). destruct Z as [->|Z].
    { right. exists [], (x :: a). rewrite thenp_end in H. repeat split; auto. constructor. }
    destruct p; try congruence; rewrite (frob_eq (thenp _ _)) in H; cbn [frob thenp] in H; rinv H H5.
    + destruct (IH _ _ H5) as [(a0 & p0 & -> & B & C & D)|(a1 & a2 & -> & B & C)].
      * left. exists (RG o :: a0), p0. repeat split; auto. now constructor.
      * right. exists (RG o :: a1), a2. repeat split; auto. now constructor.
    + destruct (IH _ _ H5) as [(a0 & p0 & -> & B & C & D)|(a1 & a2 & -> & B & C)].
      * left. exists (RE e :: a0), p0. repeat split; auto. now constructor.
      * right. exists (RE e :: a1), a2. repeat split; auto. now constructor.
Qed.
Lemma thenp_done : forall (next : P) a p, ran (thenp p next) a PEnd ->
  exists a1 a2, a = map up a1 ++ a2 /\ ran p a1 PEnd /\ ran next a2 PEnd.
Proof.
  intros next a p H. apply thenp_ran in H as [(a0 & p0 & -> & B & C & D)|H]; auto.
  rewrite (frob_eq (thenp p0 next)) in C. destruct p0; cbn in C; try discriminate. congruence.
Qed.

(** ** The operations that read to the end *)
Definition full (p : proc item (call A)) (u : use A) : Prop := forall a, ran p a PEnd ->
  evs a = fst (outcome u (gots a)) /\ snd (outcome u (gots a)) = [] /\ In (RG None) a.

Lemma wrap64_1 : forall z, wrap64 (wrap64 z + 1) = wrap64 (z + 1).
Proof.
  intros z. unfold wrap64. replace ((z + 2 ^ 63) mod 2 ^ 64 - 2 ^ 63 + 1 + 2 ^ 63)%Z with ((z + 2 ^ 63) mod 2 ^ 64 + 1)%Z by lia.
  rewrite Zplus_mod_idemp_l. do 2 f_equal. lia.
Qed.
Lemma count_ran : forall a c, ran (count_loop (A := A) (wrap64 c)) a PEnd ->
  evs a = [RetZ (wrap64 (c + zlen (gots a)))] /\ In (RG None) a.
Proof.
  induction a as [|x a IH]; intros c H; rewrite (frob_eq (count_loop _)) in H; cbn [frob count_loop] in H; rinv H H4.
  destruct o as [v|].
  - rewrite wrap64_1 in H4. destruct (IH _ H4) as [E I]. split; [|now right]. change (evs (RG (Some v) :: a)) with (evs a). rewrite E.
    change (gots (RG (Some v) :: a)) with (v :: gots a). rewrite zlen_cons. do 3 f_equal. lia.
  - rinv H4 H3. rinv H3 H4. cbn. split; [|auto]. now rewrite Z.add_0_r.
Qed.
Lemma full_count : full (Count (A := A)) UCount.
Proof.
  intros a H. unfold Count in H. change 0%Z with (wrap64 0) in H. apply count_ran in H as [E I]. repeat split; auto.
Qed.
Lemma full_foreach : full (Foreach (A := A)) UForeach.
Proof.
  unfold full, Foreach. intros a. remember (length a) as n eqn:L. assert (Hn : length a <= n) by lia. clear L. revert a Hn.
  induction n as [|n IH]; intros a Hn H; rewrite (frob_eq foreach_loop) in H; cbn [frob foreach_loop] in H; rinv H H4; cbn in Hn; [lia|].
  destruct o as [v|].
  - rinv H4 H3. cbn in Hn. destruct (IH a) as (E & F & I); [lia|assumption|]. autorewrite with sh. cbn [outcome fst snd map app] in *. repeat split; auto; [now rewrite E|right; now right].
  - rinv H4 H3. rinv H3 H4. cbn. auto.
Qed.
Lemma full_done : full (drain (A := A)) UDone.
Proof.
  unfold full. induction a as [|x a IH]; intros H; rewrite (frob_eq drain) in H; cbn [frob drain] in H; rinv H H4.
  destruct o as [v|].
  - destruct (IH H4) as (E & F & I). autorewrite with sh. repeat split; auto. now right.
  - rinv H4 H3. cbn. auto.
Qed.
Lemma last_cons : forall X (l : list X) x d, last (x :: l) d = last l x.
Proof. intros X. induction l as [|y l IH]; intros x d; auto. change (last (x :: y :: l) d) with (last (y :: l) d). now rewrite !IH. Qed.
Lemma findlast_ran : forall a l, ran (findlast_loop (A := A) l) a PEnd -> evs a = [RetI (last (map Some (gots a)) l)] /\ In (RG None) a.
Proof.
  induction a as [|x a IH]; intros l H; rewrite (frob_eq (findlast_loop _)) in H; cbn [frob findlast_loop] in H; rinv H H4.
  destruct o as [v|].
  - destruct (IH _ H4) as [E I]. split; [|now right]. change (evs (RG (Some v) :: a)) with (evs a). rewrite E.
    change (gots (RG (Some v) :: a)) with (v :: gots a). cbn [map]. do 2 f_equal.
    now rewrite last_cons.
  - rinv H4 H3. rinv H3 H4. cbn. auto.
Qed.
Lemma full_findlast : full (FindLast (A := A)) UFindLast.
Proof. intros a H. apply findlast_ran in H as [E I]. repeat split; auto. Qed.
Lemma down_ran : forall (items : list item) k a, k <= length items -> ran (down_loop items k) a PEnd ->
  evs a = map CallF (rev (firstn k items)) ++ [RetU] /\ gots a = [].
Proof.
  intros items. induction k as [|i IH]; intros a L H; cbn in H.
  - inversion H; subst. rinv H4 H3. auto.
  - destruct (nth_error items i) as [x|] eqn:Q; [|inversion H].
    rinv H H4. destruct (IH a0) as [E G]; [lia|assumption|].
    change (evs (RE (CallF x) :: a0)) with (CallF x :: evs a0). rewrite E. split; [|exact G].
    assert (F : firstn (S i) items = firstn i items ++ [x]).
    { clear -Q. revert i Q. induction items as [|y l IHl]; intros [|i] Q; cbn in *; try discriminate; [now inversion Q|]. now rewrite <- (IHl _ Q). }
    rewrite F, rev_app_distr. reflexivity.
Qed.
Lemma collect_ran : forall (k : list item -> proc item (call A)) a acc, ran (collect acc k) a PEnd ->
  exists a1 a2, a = a1 ++ RG None :: a2 /\ evs a1 = [] /\ ran (k (acc ++ gots a1)) a2 PEnd.
Proof.
  intros k. induction a as [|x a IH]; intros acc H; rewrite (frob_eq (collect _ _)) in H; cbn [frob collect] in H; rinv H H4.
  destruct o as [v|].
  - destruct (IH _ H4) as (a1 & a2 & -> & E & R). exists (RG (Some v) :: a1), a2. repeat split; auto.
    change (gots (RG (Some v) :: a1)) with ([v] ++ gots a1). now rewrite app_assoc.
  - exists [], a. cbn. rewrite app_nil_r. auto.
Qed.
Lemma full_ordered : full (ForeachOrdered (A := A)) UForeachOrdered.
Proof.
  intros a H. apply collect_ran in H as (a1 & a2 & -> & E & R). cbn [app] in R.
  apply down_ran in R as [F G]; [|lia]. rewrite firstn_all in F.
  rewrite gots_app. change (gots (RG None :: a2)) with (gots a2). rewrite G, app_nil_r. cbn [outcome fst snd].
  unfold evs in *. rewrite flat_map_app, E. repeat split; auto. apply in_or_app. right. now left.
Qed.

(** ** One operation *)
Lemma full_then : forall p u (next : P) a, full p u -> wf a -> ran (thenp p next) a PEnd ->
  exists a2, ran next a2 PEnd /\ wf a2 /\ saids a = fst (outcome u (gots a)) ++ saids a2 /\ gots a2 = snd (outcome u (gots a)).
Proof.
  intros p u next a F W H. apply thenp_done in H as (a1 & a2 & -> & B & C). destruct (F _ B) as (E & G & I).
  assert (N : gots a2 = []). { apply (wf_none _ _ _ _ W). apply in_map_iff. exists (RG None). auto. }
  exists a2. rewrite saids_app, gots_app, up_saids, up_gots, N, app_nil_r, E, G. repeat split; auto. now apply wf_tail in W.
Qed.

Definition ends1 (u : use A) (q : P) (next : P) : Prop := forall a, wf a -> ran q a PEnd ->
  exists a2, ran next a2 PEnd /\ wf a2 /\ saids a = fst (outcome u (gots a)) ++ saids a2 /\ gots a2 = snd (outcome u (gots a)).

Lemma wf_cons : forall V E (x : ract (V := V) (E := E)) b, wf (x :: b) -> wf b.
Proof. intros V E x b H. exact (wf_tail _ _ [x] b H). Qed.
Lemma wf_none1 : forall V E (b : list (ract (V := V) (E := E))), wf (RG None :: b) -> gots b = [].
Proof. intros V E b H. apply (wf_none _ _ [RG None] b H). now left. Qed.

Lemma any_done : forall f (next : P), ends1 (UAnyMach f) (anymach_u f next) next.
Proof.
  intros f next a. remember (length a) as n eqn:L. assert (Hn : length a <= n) by lia. clear L. revert a Hn.
  induction n as [|n IH]; intros a Hn W H; rewrite (frob_eq (anymach_u f next)) in H; cbn [frob anymach_u] in H; rinv H H4; cbn [length] in Hn; [lia|].
  destruct o as [v|].
  - rinv H4 H3. apply wf_cons in W as W1. apply wf_cons in W1. destruct (f v) eqn:Fv.
    + rinv H3 H4. rinv H4 H3. exists a. apply wf_cons in W1. apply wf_cons in W1.
      autorewrite with sh. cbn [outcome upto]. rewrite Fv. auto.
    + destruct (IH a) as (a2 & X & Y & S1 & S2); [cbn in Hn; lia|assumption|assumption|]. exists a2. repeat split; auto.
      * autorewrite with sh. rewrite S1. cbn [outcome upto]. rewrite Fv. destruct (upto _ (gots a)) as [g [r|]]; reflexivity.
      * autorewrite with sh. rewrite S2. cbn [outcome upto]. rewrite Fv. destruct (upto _ (gots a)) as [g [r|]]; reflexivity.
  - rinv H4 H3. apply wf_none1 in W as N. apply wf_cons in W. apply wf_cons in W. autorewrite with sh in N.
    exists a. autorewrite with sh. rewrite N. repeat split; auto.
Qed.
Lemma all_done : forall f (next : P), ends1 (UAllMach f) (allmach_u f next) next.
Proof.
  intros f next a. remember (length a) as n eqn:L. assert (Hn : length a <= n) by lia. clear L. revert a Hn.
  induction n as [|n IH]; intros a Hn W H; rewrite (frob_eq (allmach_u f next)) in H; cbn [frob allmach_u] in H; rinv H H4; cbn [length] in Hn; [lia|].
  destruct o as [v|].
  - rinv H4 H3. apply wf_cons in W as W1. apply wf_cons in W1. destruct (negb (f v)) eqn:Fv.
    + rinv H3 H4. rinv H4 H3. exists a. apply wf_cons in W1. apply wf_cons in W1.
      autorewrite with sh. cbn [outcome upto]. rewrite Fv. auto.
    + destruct (IH a) as (a2 & X & Y & S1 & S2); [cbn in Hn; lia|assumption|assumption|]. exists a2. repeat split; auto.
      * autorewrite with sh. rewrite S1. cbn [outcome upto]. rewrite Fv. destruct (upto _ (gots a)) as [g [r|]]; reflexivity.
      * autorewrite with sh. rewrite S2. cbn [outcome upto]. rewrite Fv. destruct (upto _ (gots a)) as [g [r|]]; reflexivity.
  - rinv H4 H3. apply wf_none1 in W as N. apply wf_cons in W. apply wf_cons in W. autorewrite with sh in N.
    exists a. autorewrite with sh. rewrite N. repeat split; auto.
Qed.
Lemma first_done : forall (next : P), ends1 UFindFirst (findfirst_u next) next.
Proof.
  intros next a W H. rinv H H4. destruct o as [v|].
  - rinv H4 H3. rinv H3 H4. match goal with K : ran next ?b PEnd |- _ => exists b end. do 3 apply wf_cons in W. autorewrite with sh. auto.
  - rinv H4 H3. apply wf_none1 in W as N. do 2 apply wf_cons in W. autorewrite with sh in N.
    match goal with K : ran next ?b PEnd |- _ => exists b end. autorewrite with sh. rewrite N. repeat split; auto.
Qed.
Lemma perform_done : forall u (next : P), ends1 u (perform u next) next.
Proof.
  intros [] next; cbn [perform]; [| | | | |apply first_done|apply any_done|apply all_done]; intros a W H.
  - exact (full_then _ _ _ _ full_count W H).
  - exact (full_then _ _ _ _ full_foreach W H).
  - exact (full_then _ _ _ _ full_ordered W H).
  - exact (full_then _ _ _ _ full_findlast W H).
  - exact (full_then _ _ _ _ full_done W H).
Qed.
Lemma caller_done : forall us a, wf a -> ran (caller us) a PEnd -> saids a = results us (gots a).
Proof.
  induction us as [|u us IH]; intros a W H; cbn [caller fold_right] in H.
  - inversion H; subst. reflexivity.
  - apply perform_done in H as (a2 & X & Y & S1 & S2); auto. rewrite S1, (IH _ Y X), S2. cbn [results]. now destruct (outcome u (gots a)).
Qed.

(** ** Draining goroutines *)
Definition goes (q : P) : Prop := forall a p', wf a -> ran q a p' -> In (RE UGo) a -> gots a <> [].
Lemma goes_then : forall p (next : P), goes next -> goes (thenp p next).
Proof.
  intros p next G a p' W H I. apply thenp_ran in H as [(a0 & p0 & -> & B & C & D)|(a1 & a2 & -> & B & C)].
  - now apply up_go in I.
  - apply in_app_or in I as [I|I]; [now apply up_go in I|]. apply wf_tail in W. specialize (G _ _ W C I).
    rewrite gots_app. intros Q. apply app_eq_nil in Q. tauto.
Qed.
Lemma goes_none : forall c (next : P) a p', goes next -> wf a -> ran (PCall (USaid c) next) a p' -> In (RE UGo) a -> gots a <> [].
Proof.
  intros c next a p' G W H I. rinv H H3; [easy|]. destruct I as [I|I]; [discriminate|]. apply wf_cons in W. exact (G _ _ W H3 I).
Qed.
Lemma goes_perform : forall u (next : P), goes next -> goes (perform u next).
Proof.
  intros u next G. destruct u; cbn [perform]; try (now apply goes_then); intros a p' W H I;
    rewrite (frob_eq (_ : P)) in H; cbn [frob findfirst_u anymach_u allmach_u] in H;
    (rinv H H4; [easy|]; destruct o as [v|]; [discriminate|];
     destruct I as [I|I]; [discriminate|]; apply wf_cons in W; exact (goes_none _ _ _ _ G W H4 I)).
Qed.
Lemma goes_caller : forall us, goes (caller us).
Proof.
  induction us as [|u us IH]; cbn [caller fold_right]; [|now apply goes_perform].
  intros a p' W H I. inversion H; subst. easy.
Qed.

(** the first draining goroutine is started by an operation that has its answer *)
Definition decided (u : use A) (q : P) : Prop := forall a1 a2 p', wf (a1 ++ RE UGo :: a2) -> ran q (a1 ++ RE UGo :: a2) p' -> ~ In (RE UGo) a1 ->
  exists c, forall r, outcome u (gots a1 ++ r) = (c, r).

Lemma app_cut : forall X (a b c d : list X) x, a ++ b = c ++ x :: d -> ~ In x a -> exists e, c = a ++ e /\ b = e ++ x :: d.
Proof.
  intros X. induction a as [|y a IH]; intros b c d x H N; cbn in *; [exists c; auto|].
  destruct c as [|z c]; cbn in H; inversion H; subst; [tauto|]. destruct (IH _ _ _ _ H2) as (e & -> & ->); [tauto|]. exists e. auto.
Qed.
Lemma decided_then : forall p u0 u (next : P), full p u0 -> goes next -> decided u (thenp p next).
Proof.
  intros p u0 u next F G a1 a2 p' W H N. exfalso. apply thenp_ran in H as [(a0 & p0 & Q & B & C & D)|(b1 & b2 & Q & B & C)].
  - apply (up_go a0). rewrite <- Q. apply in_or_app. right. now left.
  - destruct (F _ B) as (_ & _ & I).
    assert (IN : In (RE UGo) b2).
    { assert (J : In (RE UGo) (map up b1 ++ b2)) by (rewrite <- Q; apply in_or_app; right; now left).
      apply in_app_or in J as [J|J]; auto. now apply up_go in J. }
    rewrite Q in W. assert (Z : gots b2 = []). { apply (wf_none _ _ _ _ W). apply in_map_iff. exists (RG None). auto. }
    apply wf_tail in W. exact (G _ _ W C IN Z).
Qed.
Lemma none_go : forall c (next : P) a1 a2 p', goes next -> wf (RG None :: a1 ++ RE UGo :: a2) -> ran (PCall (USaid c) next) (a1 ++ RE UGo :: a2) p' -> False.
Proof.
  intros c next a1 a2 p' G W H. apply wf_none1 in W as Z. apply wf_cons in W.
  refine (goes_none _ _ _ _ G W H _ Z). apply in_or_app. right. now left.
Qed.
Lemma decided_first : forall next : P, goes next -> decided UFindFirst (findfirst_u next).
Proof.
  intros next G a1 a2 p' W H N. destruct a1 as [|x a1]; cbn [app] in *; rinv H H4.
  destruct o as [v|].
  - destruct a1 as [|y a1]; cbn [app] in *; rinv H4 H3; [|cbn in N; tauto]. exists [RetI (Some v)]. reflexivity.
  - destruct (none_go _ _ _ _ _ G W H4).
Qed.
Lemma decided_any : forall f (next : P), goes next -> decided (UAnyMach f) (anymach_u f next).
Proof.
  intros f next G a1. remember (length a1) as n eqn:L. assert (Hn : length a1 <= n) by lia. clear L. revert a1 Hn.
  induction n as [|n IH]; intros a1 Hn a2 p' W H N; rewrite (frob_eq (anymach_u f next)) in H; cbn [frob anymach_u] in H;
    destruct a1 as [|x a1]; cbn [app length] in *; rinv H H4; [lia|].
  destruct o as [v|]; [|destruct (none_go _ _ _ _ _ G W H4)].
  destruct a1 as [|y a1]; cbn [app] in *; rinv H4 H3. destruct (f v) eqn:Fv.
  - destruct a1 as [|z a1]; cbn [app] in *; rinv H3 H4; [|cbn in N; tauto].
    exists [CallF v; RetB true]. intros r. cbn. now rewrite Fv.
  - destruct (IH a1) with a2 p' as (c & C); [cbn in Hn; lia|now do 2 apply wf_cons in W|assumption|cbn in N; tauto|].
    exists (CallF v :: c). intros r. specialize (C r). autorewrite with sh. cbn [app outcome upto] in *. rewrite Fv. destruct (upto f (gots a1 ++ r)) as [g [r'|]]; inversion C; subst; reflexivity.
Qed.
Lemma decided_all : forall f (next : P), goes next -> decided (UAllMach f) (allmach_u f next).
Proof.
  intros f next G a1. remember (length a1) as n eqn:L. assert (Hn : length a1 <= n) by lia. clear L. revert a1 Hn.
  induction n as [|n IH]; intros a1 Hn a2 p' W H N; rewrite (frob_eq (allmach_u f next)) in H; cbn [frob allmach_u] in H;
    destruct a1 as [|x a1]; cbn [app length] in *; rinv H H4; [lia|].
  destruct o as [v|]; [|destruct (none_go _ _ _ _ _ G W H4)].
  destruct a1 as [|y a1]; cbn [app] in *; rinv H4 H3. destruct (negb (f v)) eqn:Fv.
  - destruct a1 as [|z a1]; cbn [app] in *; rinv H3 H4; [|cbn in N; tauto].
    exists [CallF v; RetB false]. intros r. cbn. now rewrite Fv.
  - destruct (IH a1) with a2 p' as (c & C); [cbn in Hn; lia|now do 2 apply wf_cons in W|assumption|cbn in N; tauto|].
    exists (CallF v :: c). intros r. specialize (C r). autorewrite with sh. cbn [app outcome upto] in *. rewrite Fv.
    destruct (upto (fun x => negb (f x)) (gots a1 ++ r)) as [g [r'|]]; inversion C; subst; reflexivity.
Qed.
Lemma decided_perform : forall u (next : P), goes next -> decided u (perform u next).
Proof.
  intros [] next G; cbn [perform]; [| | | | |now apply decided_first|now apply decided_any|now apply decided_all].
  - exact (decided_then _ _ _ _ full_count G).
  - exact (decided_then _ _ _ _ full_foreach G).
  - exact (decided_then _ _ _ _ full_ordered G).
  - exact (decided_then _ _ _ _ full_findlast G).
  - exact (decided_then _ _ _ _ full_done G).
Qed.

Lemma perform_ends : forall u (next : P) a, ran (perform u next) a PEnd -> In (RG None) a \/ In (RE UGo) a.
Proof.
  intros u next a H.
  assert (T : forall p u0, full p u0 -> ran (thenp p next) a PEnd -> In (RG None) a \/ In (RE UGo) a).
  { intros p u0 F Hr. apply thenp_done in Hr as (a1 & a2 & -> & B & _). left. apply in_or_app. left.
    apply in_map_iff. exists (RG None). split; auto. now destruct (F _ B) as (_ & _ & I). }
  destruct u; cbn [perform] in H.
  - exact (T _ _ full_count H).
  - exact (T _ _ full_foreach H).
  - exact (T _ _ full_ordered H).
  - exact (T _ _ full_findlast H).
  - exact (T _ _ full_done H).
  - clear T. rinv H H4. destruct o as [v|]; [|left; now left]. rinv H4 H3. right. right. now left.
  - clear T. remember (length a) as n eqn:L. assert (Hn : length a <= n) by lia. clear L. revert a Hn H.
    induction n as [|n IH]; intros a Hn H; rewrite (frob_eq (anymach_u f next)) in H; cbn [frob anymach_u] in H; rinv H H4; cbn [length] in Hn; [lia|].
    destruct o as [v|]; [|left; now left]. rinv H4 H3. cbn [length] in Hn. destruct (f v).
    + rinv H3 H4. right. right. right. now left.
    + destruct (IH a) as [I|I]; [lia|assumption| |]; [left|right]; right; right; exact I.
  - clear T. remember (length a) as n eqn:L. assert (Hn : length a <= n) by lia. clear L. revert a Hn H.
    induction n as [|n IH]; intros a Hn H; rewrite (frob_eq (allmach_u f next)) in H; cbn [frob allmach_u] in H; rinv H H4; cbn [length] in Hn; [lia|].
    destruct o as [v|]; [|left; now left]. rinv H4 H3. cbn [length] in Hn. destruct (negb (f v)).
    + rinv H3 H4. right. right. right. now left.
    + destruct (IH a) as [I|I]; [lia|assumption| |]; [left|right]; right; right; exact I.
Qed.
Lemma drain_ends : forall a, ran (drain_u (A := A)) a PEnd -> In (RG None) a.
Proof.
  induction a as [|x a IH]; intros H; rewrite (frob_eq drain_u) in H; cbn [frob drain_u] in H; rinv H H4.
  destruct o as [v|]; [right; auto|now left].
Qed.

(** ** Every run ends *)
Lemma pot_weak : forall m m' (p : P), m <= m' -> pot m p -> pot m' p.
Proof.
  intros m m' p L H. inversion H; subst.
  - apply pot_end.
  - eapply pot_call; [assumption| |eassumption]. lia.
  - eapply pot_fork; [eassumption| |eassumption|eassumption]. lia.
  - eapply pot_recv; [| eassumption|eassumption]. lia.
Qed.
Lemma pot_drain : forall m, 1 <= m -> pot m (drain_u (A := A)).
Proof.
  cofix CH. intros m L. rewrite (frob_eq drain_u). cbn [frob drain_u]. apply (pot_recv _ 0); [lia| |apply pot_end].
  intros v. apply CH. lia.
Qed.
Lemma pot_said : forall m c (p : P), pot m p -> pot (S m) (PCall (USaid c) p).
Proof. intros m c p H. apply (pot_call _ m); auto. Qed.
Lemma pot_go : forall m (p : P), pot m p -> pot (m + 2) (PCall UGo p).
Proof. intros m p H. apply (pot_fork _ m 1 _ _ drain_u); auto; [lia|apply pot_drain; lia]. Qed.

Lemma pot_count : forall (next : P) m, pot m next -> forall c m', m + 2 <= m' -> pot m' (thenp (count_loop c) next).
Proof.
  intros next m H. cofix CH. intros c m' L. rewrite (frob_eq (thenp _ _)). cbn [frob thenp count_loop]. apply (pot_recv _ (S m)); [lia| |].
  - intros v. apply CH. lia.
  - rewrite (frob_eq (thenp _ _)). cbn [frob thenp]. rewrite thenp_end. apply pot_said. exact H.
Qed.
Lemma pot_foreach : forall (next : P) m, pot m next -> forall m', m + 2 <= m' -> pot m' (thenp foreach_loop next).
Proof.
  intros next m H. cofix CH. intros m' L. rewrite (frob_eq (thenp _ _)). cbn [frob thenp foreach_loop]. apply (pot_recv _ (S m)); [lia| |].
  - intros v. rewrite (frob_eq (thenp _ _)). cbn [frob thenp]. apply (pot_call _ (m + 2)); [reflexivity|lia|]. apply CH. lia.
  - rewrite (frob_eq (thenp _ _)). cbn [frob thenp]. rewrite thenp_end. apply pot_said. exact H.
Qed.
Lemma pot_findlast : forall (next : P) m, pot m next -> forall l m', m + 2 <= m' -> pot m' (thenp (findlast_loop l) next).
Proof.
  intros next m H. cofix CH. intros l m' L. rewrite (frob_eq (thenp _ _)). cbn [frob thenp findlast_loop]. apply (pot_recv _ (S m)); [lia| |].
  - intros v. apply CH. lia.
  - rewrite (frob_eq (thenp _ _)). cbn [frob thenp]. rewrite thenp_end. apply pot_said. exact H.
Qed.
Lemma pot_done : forall (next : P) m, pot m next -> forall m', m + 1 <= m' -> pot m' (thenp drain next).
Proof.
  intros next m H. cofix CH. intros m' L. rewrite (frob_eq (thenp _ _)). cbn [frob thenp drain]. apply (pot_recv _ m); [lia| |].
  - intros v. apply CH. lia.
  - rewrite thenp_end. exact H.
Qed.
Lemma pot_down : forall (next : P) m (items : list item), pot m next -> forall k, k <= length items -> pot (m + k + 1) (thenp (down_loop items k) next).
Proof.
  intros next m items H. induction k as [|k IH]; intros L; cbn [down_loop].
  - rewrite (frob_eq (thenp _ _)). cbn [frob thenp]. rewrite thenp_end. replace (m + 0 + 1) with (S m) by lia. apply pot_said. exact H.
  - destruct (nth_error items k) as [x|] eqn:Q; [|apply nth_error_None in Q; lia].
    rewrite (frob_eq (thenp _ _)). cbn [frob thenp]. replace (m + S k + 1) with (S (m + k + 1)) by lia. apply pot_said. apply IH. lia.
Qed.
Lemma pot_ordered : forall (next : P) m, pot m next -> forall acc m', m + length acc + 2 <= m' ->
  pot m' (thenp (collect acc (fun items => down_loop items (length items))) next).
Proof.
  intros next m H. cofix CH. intros acc m' L. rewrite (frob_eq (thenp _ _)). cbn [frob thenp collect]. apply (pot_recv _ (m + length acc + 1)); [lia| |].
  - intros v. apply CH. rewrite app_length. cbn [length]. lia.
  - apply pot_down; auto.
Qed.
Lemma pot_any : forall (next : P) m f, pot m next -> forall m', m + 3 <= m' -> pot m' (anymach_u f next).
Proof.
  intros next m f H. cofix CH. intros m' L. rewrite (frob_eq (anymach_u _ _)). cbn [frob anymach_u]. apply (pot_recv _ (m + 2)); [lia| |].
  - intros v. apply (pot_call _ (m + 3)); [reflexivity|lia|]. destruct (f v); [|apply CH; lia].
    replace (m + 3) with (S m + 2) by lia. apply pot_go, pot_said, H.
  - apply (pot_call _ m); [reflexivity|lia|exact H].
Qed.
Lemma pot_all : forall (next : P) m f, pot m next -> forall m', m + 3 <= m' -> pot m' (allmach_u f next).
Proof.
  intros next m f H. cofix CH. intros m' L. rewrite (frob_eq (allmach_u _ _)). cbn [frob allmach_u]. apply (pot_recv _ (m + 2)); [lia| |].
  - intros v. apply (pot_call _ (m + 3)); [reflexivity|lia|]. destruct (negb (f v)); [|apply CH; lia].
    replace (m + 3) with (S m + 2) by lia. apply pot_go, pot_said, H.
  - apply (pot_call _ m); [reflexivity|lia|exact H].
Qed.
Lemma pot_perform : forall u (next : P) m, pot m next -> pot (m + 3) (perform u next).
Proof.
  intros u next m H. destruct u; cbn [perform].
  - apply (pot_count _ m); auto. lia.
  - apply (pot_foreach _ m); auto. lia.
  - apply (pot_ordered _ m); auto. cbn. lia.
  - apply (pot_findlast _ m); auto. lia.
  - apply (pot_done _ m); auto. lia.
  - apply (pot_recv _ (m + 2)); [lia| |].
    + intros v. apply (pot_weak (S m + 2)); [lia|]. apply pot_go, pot_said, H.
    + apply (pot_call _ m); [reflexivity|lia|exact H].
  - apply (pot_any _ m); auto.
  - apply (pot_all _ m); auto.
Qed.
Lemma pot_caller : forall us, pot (3 * length us) (caller us).
Proof.
  induction us as [|u us IH]; cbn [caller fold_right]; [apply pot_end|].
  apply (pot_weak (3 * length us + 3)); [cbn [length]; lia|]. now apply pot_perform.
Qed.
Lemma pots : forall C, Forall2 pot (map (fun us => 3 * length us) C) (map caller C).
Proof. induction C; cbn [map]; constructor; auto. apply pot_caller. Qed.

Lemma all_taken : forall xs n C tr q c R, steps hstep (shared xs n (map caller C)) tr ((q, c), R) -> Forall (fun p => p = PEnd) R ->
  (exists u us, In (u :: us) C) -> taken tr = xs.
Proof.
  intros xs n C tr q c R H F (u & us & I).
  assert (K : exists i, In (HGet i None) tr).
  { apply In_nth_error in I as (j & I). apply (map_nth_error caller) in I as I'. unfold shared in H.
    destruct (reader_inv _ _ _ _ _ _ H _ _ I') as (p' & N & Rn). apply nth_error_In in N. rewrite Forall_forall in F. rewrite (F _ N) in Rn.
    assert (G : forall i (t : list (hlabel item (ucall A))) p, ran p (view i t) PEnd -> In (RG None) (view i t) -> In (HGet i None) t).
    { intros i t p _ J. apply in_split in J as (x & y & J). destruct (view_split _ _ _ _ _ J) as (t1 & l & t2 & -> & _ & B & _).
      apply in_or_app. right. left. destruct l as [|i' o|i' e]; cbn in B; [discriminate| |destruct (i' =? i); discriminate].
      destruct (i' =? i) eqn:Q; [|discriminate]. apply Nat.eqb_eq in Q. inversion B; subst. reflexivity. }
    destruct (perform_ends _ _ _ Rn) as [J|J]; [exists j; exact (G _ _ _ Rn J)|].
    apply in_split in J as (x & y & J). destruct (view_split _ _ _ _ _ J) as (t1 & l & t2 & -> & _ & B & _).
    destruct l as [|i' o|i' e]; cbn in B; [discriminate|destruct (i' =? j); discriminate|].
    destruct (i' =? j); [|discriminate]. inversion B; subst. clear B.
    apply steps_app_inv in H as ((s1 & R1) & H1 & H2). change (HDo i' UGo :: t2) with ([HDo (V := item) i' (@UGo A)] ++ t2) in H2.
    apply steps_app_inv in H2 as ((s2 & R2) & H2 & H3).
    assert (D : exists i, nth_error R2 i = Some drain_u).
    { clear -H2. inversion H2 as [|tr s3 l s4 X St Y Z]; subst. destruct tr as [|? tr]; [|destruct tr; discriminate]. inversion Y; subst.
      inversion X; subst; [|destruct tr; discriminate]. inversion St; subst; cbn in *; [discriminate|].
      match goal with Q : Some _ = Some _ |- _ => inversion Q; subst end.
      exists (length (l ++ p :: r)). rewrite app_comm_cons, app_assoc, nth_error_app2, Nat.sub_diag by lia. reflexivity. }
    destruct D as (i & D). destruct (reader_inv _ _ _ _ _ _ H3 _ _ D) as (p2 & N2 & Rn2). apply nth_error_In in N2. rewrite (F _ N2) in Rn2.
    exists i. apply in_or_app. right. right. exact (G _ _ _ Rn2 (drain_ends _ Rn2)). }
  destruct K as (i & K). apply in_split in K as (t1 & t2 & ->). apply seen_end in H as [P1 P2].
  rewrite taken_app. change (taken (HGet i None :: t2)) with (taken t2). now rewrite P1, P2, app_nil_r.
Qed.

(** ** One caller *)
Lemma alone : forall s p tr s' R, steps hstep (s, [p]) tr (s', R) -> ~ In (RE UGo) (view 0 tr) -> length R = 1 /\ taken tr = taken_by 0 tr.
Proof.
  intros s p tr s' R H. remember (s', R) as z eqn:Q. revert s' R Q. induction H as [|tr s1 l s2 H IH St]; intros s' R Q N.
  - inversion Q; subst. auto.
  - destruct s1 as (s1 & R1). rewrite view_app in N. destruct (IH _ _ eq_refl) as [L T]; [intros J; apply N, in_or_app; now left|].
    rewrite taken_app, taken_by_app, T. subst s2.
    inversion St; subst; rewrite ?app_length in *; cbn [length] in *; try (split; [lia|reflexivity]);
      (assert (l0 = []) by (destruct l0; cbn in L; [reflexivity|lia]); subst l0; cbn in *; try (split; [lia|reflexivity])).
    exfalso. apply N, in_or_app. right. destruct e; [discriminate|]. now left.
Qed.

Lemma first_go : forall a : list uact, ~ In (RE UGo) a \/ exists a1 a2, a = a1 ++ RE UGo :: a2 /\ ~ In (RE UGo) a1.
Proof.
  induction a as [|x a IH]; [left; auto|]. destruct x as [o|[c|]].
  - destruct IH as [N|(a1 & a2 & -> & N)]; [left; intros [Q|Q]; [discriminate|auto]|].
    right. exists (RG o :: a1), a2. split; auto. intros [Q|Q]; [discriminate|auto].
  - destruct IH as [N|(a1 & a2 & -> & N)]; [left; intros [Q|Q]; [discriminate|auto]|].
    right. exists (RE (USaid c) :: a1), a2. split; auto. intros [Q|Q]; [discriminate|auto].
  - right. exists [], a. auto.
Qed.

Lemma one_result : forall xs n u us tr s R, steps hstep (shared xs n [caller (u :: us)]) tr (s, PEnd :: R) ->
  exists ys, subseq ys (snd (outcome u xs)) /\ said 0 tr = fst (outcome u xs) ++ results us ys.
Proof.
  intros xs n u us tr (q & c) R H. pose proof (view_wf _ _ _ _ _ _ 0 H) as W.
  destruct (reader_inv _ _ _ _ _ _ H 0 _ eq_refl) as (p' & N & Rn). cbn in N. inversion N; subst p'. clear N.
  pose proof (caller_done _ _ W Rn) as S. rewrite saids_view, gots_view in S.
  destruct (src_inv _ _ _ _ _ _ _ _ H) as (rs & _ & _ & T & _).
  destruct (first_go (view 0 tr)) as [G|(a1 & a2 & Q & G)].
  - destruct (alone _ _ _ _ _ H G) as [_ L].
    destruct (perform_ends _ _ _ Rn) as [J|J]; [|tauto].
    assert (X : taken tr = xs).
    { apply in_split in J as (x & y & J). destruct (view_split _ _ _ _ _ J) as (t1 & l & t2 & -> & _ & B & _).
      destruct l as [|i' o|i' e]; cbn in B; [discriminate| |destruct i'; discriminate].
      destruct i'; [|discriminate]. inversion B; subst o. apply seen_end in H as [P1 P2]. rewrite taken_app. change (taken (HGet 0 None :: t2)) with (taken t2).
      now rewrite P1, P2, app_nil_r. }
    rewrite <- L, X in S. exists (snd (outcome u xs)). split; [apply subseq_refl|]. rewrite S. cbn [results]. now destruct (outcome u xs).
  - rewrite Q in W, Rn. destruct (decided_perform u (caller us) (goes_caller us) a1 a2 _ W Rn G) as (cs & D).
    destruct (view_split _ _ _ _ _ Q) as (t1 & l & t2 & -> & B1 & B & B2).
    apply steps_app_inv in H as ((s1 & R1) & H1 & H2).
    destruct (alone _ _ _ _ _ H1) as [_ L]; [now rewrite B1|].
    rewrite <- B1, gots_view, <- L in D.
    assert (K : taken (l :: t2) = taken t2 /\ taken_by 0 (l :: t2) = taken_by 0 t2).
    { destruct l as [|i' [v|]|i' e]; cbn in B; try discriminate; auto. destruct i'; discriminate. }
    destruct K as [K1 K2].
    rewrite taken_app, K1, <- app_assoc in T. rewrite taken_by_app, <- L, K2 in S. cbn [results] in S. rewrite D in S.
    exists (taken_by 0 t2). rewrite T, D. cbn [fst snd]. split; [|exact S]. apply subseq_app_r, taken_by_sub.
Qed.

(** ** Runs *)
Inductive srcat (n : nat) : list item -> stage item (ucall A) -> Prop :=
| at_open : forall zs, srcat n zs (source zs, Ch n [] false)
| at_closed : srcat n [] (PEnd, Ch n [] true).
(** reader 0 can be made to receive exactly ys and then the end *)
Definition avail (n : nat) (ys : list item) (s : stage item (ucall A)) (R : list P) : Prop :=
  exists zs, srcat n zs s /\ (ys = zs \/ (subseq ys zs /\ In drain_u R)).

Lemma give : forall n v zs l k r, exists tr, steps hstep ((source (v :: zs), Ch n [] false), l ++ PRecv k :: r) tr ((source zs, Ch n [] false), l ++ k (Some v) :: r) /\
  taken tr = [v] /\ (forall j, said j tr = []) /\ forall j, taken_by j tr = if length l =? j then [v] else [].
Proof.
  intros [|n] v zs l k r.
  - exists [HGet (length l) (Some v)]. split; [eapply steps_cons; [apply HHand|constructor]|].
    repeat split; auto. intros j. cbn. destruct (length l =? j); auto.
  - exists [HSrc; HGet (length l) (Some v)]. split; [eapply steps_cons; [apply HSend; cbn; lia|eapply steps_cons; [apply HRecv|constructor]]|].
    repeat split; auto. intros j. cbn. destruct (length l =? j); auto.
Qed.
Lemma drain_unf : drain_u (A := A) = PRecv (fun o => match o with Some _ => drain_u | None => PEnd end).
Proof. rewrite (frob_eq drain_u) at 1. reflexivity. Qed.
Lemma throw : forall n v zs p R, In drain_u R -> exists tr, steps hstep ((source (v :: zs), Ch n [] false), p :: R) tr ((source zs, Ch n [] false), p :: R) /\ said 0 tr = [].
Proof.
  intros n v zs p R I. apply in_split in I as (l & r & ->). pose proof drain_unf as D1.
  destruct (give n v zs (p :: l) (fun o => match o with Some _ => drain_u | None => PEnd end) r) as (tr & A1 & _ & A2 & _).
  cbv beta iota in A1. rewrite <- D1 in A1. cbn [app] in A1. exists tr. split; [exact A1|apply A2].
Qed.
Lemma throw_sub : forall n y ys zs p R, In drain_u R -> subseq (y :: ys) zs -> exists tr zs', subseq ys zs' /\
  steps hstep ((source zs, Ch n [] false), p :: R) tr ((source (y :: zs'), Ch n [] false), p :: R) /\ said 0 tr = [].
Proof.
  intros n y ys zs p R I H. remember (y :: ys) as w eqn:Q. revert y ys Q. induction H as [|x w zs H IH|x w zs H IH]; intros y ys Q; [discriminate| |].
  - destruct (IH _ _ Q) as (tr & zs' & A1 & A2 & A3). destruct (throw n x zs p R I) as (t0 & B1 & B2).
    exists (t0 ++ tr), zs'. split; auto. split; [eapply steps_app; eauto|]. unfold said in *. now rewrite flat_map_app, B2, A3.
  - inversion Q; subst. exists [], zs. repeat split; auto. constructor.
Qed.
Lemma throw_all : forall n zs p R, In drain_u R -> exists tr,
  steps hstep ((source zs, Ch n [] false), p :: R) tr ((source [], Ch n [] false), p :: R) /\ said 0 tr = [].
Proof.
  intros n zs p R I. induction zs as [|x zs IH]; [exists []; repeat constructor|].
  destruct IH as (tr & A1 & A2). destruct (throw n x zs p R I) as (t0 & B1 & B2).
  exists (t0 ++ tr). split; [eapply steps_app; eauto|]. unfold said in *. now rewrite flat_map_app, B2, A2.
Qed.
Lemma said_app : forall j (a b : list (hlabel item (ucall A))), said j (a ++ b) = said j a ++ said j b.
Proof. intros. apply flat_map_app. Qed.

Lemma av_item : forall n y ys s R k, avail n (y :: ys) s R -> exists tr s', steps hstep (s, PRecv k :: R) tr (s', k (Some y) :: R) /\ avail n ys s' R /\ said 0 tr = [].
Proof.
  intros n y ys s R k (zs & S & D).
  assert (S' : s = (source zs, Ch n [] false)). { destruct S; auto. destruct D as [D|[D _]]; [discriminate|inversion D]. }
  subst s. destruct D as [<-|[D I]].
  - destruct (give n y ys [] k R) as (tr & A1 & _ & A2 & _). exists tr, (source ys, Ch n [] false). repeat split; [exact A1| |apply A2].
    exists ys. split; [constructor|auto].
  - destruct (throw_sub n y ys zs (PRecv k) R I D) as (tr & zs' & D' & B1 & B2).
    destruct (give n y zs' [] k R) as (t2 & A1 & _ & A2 & _). exists (tr ++ t2), (source zs', Ch n [] false).
    split; [eapply steps_app; [exact B1|exact A1]|]. split; [exists zs'; split; [constructor|auto]|]. now rewrite said_app, B2, A2.
Qed.
Lemma av_end : forall n s R k, avail n [] s R -> exists tr s', steps hstep (s, PRecv k :: R) tr (s', k None :: R) /\ avail n [] s' R /\ said 0 tr = [].
Proof.
  intros n s R k (zs & S & D).
  assert (F : exists tr, steps hstep ((source [], Ch n [] false), PRecv k :: R) tr ((PEnd, Ch n [] true), k None :: R) /\ said 0 tr = []).
  { exists [HSrc; HGet 0 None]. split; auto. eapply steps_cons; [apply HClose|]. eapply steps_cons; [apply (HEnd _ PEnd n [] k R)|constructor]. }
  assert (Z : avail n [] (PEnd, Ch n [] true) R) by (exists []; split; [constructor|auto]).
  destruct F as (t2 & F1 & F2). destruct S.
  - destruct D as [<-|[D I]]; [exists t2, (PEnd, Ch n [] true); auto|].
    destruct (throw_all n zs (PRecv k) R I) as (tr & A1 & A2). exists (tr ++ t2), (PEnd, Ch n [] true).
    split; [eapply steps_app; [exact A1|exact F1]|]. split; auto. now rewrite said_app, A2, F2.
  - exists [HGet 0 None], (PEnd, Ch n [] true). split; auto. eapply steps_cons; [apply (HEnd _ PEnd n [] k R)|constructor].
Qed.
Lemma av_say : forall s c (p : P) R, steps hstep (s, PCall (USaid c) p :: R) [HDo 0 (USaid c)] (s, p :: R).
Proof. intros. eapply steps_cons; [apply (HCall _ s [] (USaid c) p R); reflexivity|constructor]. Qed.
Lemma av_go : forall s (p : P) R, steps hstep (s, PCall UGo p :: R) [HDo 0 UGo] (s, p :: R ++ [drain_u]).
Proof. intros. eapply steps_cons; [apply (HFork _ s [] UGo p drain_u R); reflexivity|constructor]. Qed.

(** an operation can be run on ys, and what it leaves can be thinned out if it started to drain *)
Definition runs1 (q next : P) (n : nat) (ys : list item) (out : list (call A) * list item) : Prop := forall s R, avail n ys s R ->
  exists tr s' R', steps hstep (s, q :: R) tr (s', next :: R') /\ said 0 tr = fst out /\ forall r, subseq r (snd out) -> avail n r s' R'.
Lemma end_runs : forall n s R r, avail n [] s R -> subseq r [] -> avail n r s R.
Proof. intros n s R r H S. now rewrite (subseq_nil_inv _ _ S). Qed.
Lemma go_runs : forall n ys s R r, avail n ys s R -> subseq r ys -> avail n r s (R ++ [drain_u]).
Proof.
  intros n ys s R r (zs & S & D) L. exists zs. split; auto. right. split; [|apply in_or_app; right; now left].
  destruct D as [<-|[D _]]; auto. clear -L D. revert r L. induction D as [|x y z D IH|x y z D IH]; intros r L; auto.
  - apply sub_skip; auto.
  - inversion L; subst; [apply sub_skip; auto|apply sub_take; auto].
Qed.

Lemma r_item : forall n y ys c r k next, runs1 (k (Some y)) next n ys (c, r) -> runs1 (PRecv k) next n (y :: ys) (c, r).
Proof.
  intros n y ys c r k next H s R V. destruct (av_item _ _ _ _ _ k V) as (tr & s' & A1 & A2 & A3).
  destruct (H _ _ A2) as (t2 & s2 & R2 & B1 & B2 & B3). exists (tr ++ t2), s2, R2. split; [eapply steps_app; eauto|]. split; auto. now rewrite said_app, A3, B2.
Qed.
Lemma r_end : forall n c r k next, runs1 (k None) next n [] (c, r) -> runs1 (PRecv k) next n [] (c, r).
Proof.
  intros n c r k next H s R V. destruct (av_end _ _ _ k V) as (tr & s' & A1 & A2 & A3).
  destruct (H _ _ A2) as (t2 & s2 & R2 & B1 & B2 & B3). exists (tr ++ t2), s2, R2. split; [eapply steps_app; eauto|]. split; auto. now rewrite said_app, A3, B2.
Qed.
Lemma r_say : forall n ys e c r p next, runs1 p next n ys (c, r) -> runs1 (PCall (USaid e) p) next n ys (e :: c, r).
Proof.
  intros n ys e c r p next H s R V. destruct (H _ _ V) as (t2 & s2 & R2 & B1 & B2 & B3). exists ([HDo 0 (USaid e)] ++ t2), s2, R2.
  split; [eapply steps_app; [apply av_say|exact B1]|]. split; auto. rewrite said_app, B2. reflexivity.
Qed.
Lemma r_go : forall n ys c next, runs1 (PCall UGo (PCall (USaid c) next)) next n ys ([c], ys).
Proof.
  intros n ys c next s R V. exists ([HDo 0 UGo] ++ [HDo 0 (USaid c)]), s, (R ++ [drain_u]).
  split; [eapply steps_app; [apply av_go|apply av_say]|]. split; auto. intros r L. now apply (go_runs n ys).
Qed.
Lemma r_stop : forall n next, runs1 next next n [] ([], []).
Proof. intros n next s R V. exists [], s, R. split; [constructor|]. split; auto. intros r L. now apply end_runs. Qed.

Ltac unf := rewrite (frob_eq (thenp _ _)); cbn [frob thenp].
Lemma r_count : forall n next ys c, runs1 (thenp (count_loop (wrap64 c)) next) next n ys ([RetZ (wrap64 (c + zlen ys))], []).
Proof.
  intros n next. induction ys as [|y ys IH]; intros c; rewrite (frob_eq (thenp _ _)); cbn [frob thenp count_loop].
  - apply r_end. unf. rewrite thenp_end. replace (c + zlen (@nil item))%Z with c by (cbn; lia). apply r_say, r_stop.
  - apply r_item. cbv beta iota. rewrite wrap64_1, zlen_cons. replace (c + (1 + zlen ys))%Z with (c + 1 + zlen ys)%Z by lia. apply IH.
Qed.
Lemma r_foreach : forall n next ys, runs1 (thenp foreach_loop next) next n ys (map CallF ys ++ [RetU], []).
Proof.
  intros n next. induction ys as [|y ys IH]; rewrite (frob_eq (thenp _ _)); cbn [frob thenp foreach_loop].
  - apply r_end. unf. rewrite thenp_end. apply r_say, r_stop.
  - apply r_item. cbv beta iota. unf. cbn [map app]. apply r_say, IH.
Qed.
Lemma r_findlast : forall n next ys l, runs1 (thenp (findlast_loop l) next) next n ys ([RetI (last (map Some ys) l)], []).
Proof.
  intros n next. induction ys as [|y ys IH]; intros l; rewrite (frob_eq (thenp _ _)); cbn [frob thenp findlast_loop].
  - apply r_end. unf. rewrite thenp_end. apply r_say, r_stop.
  - apply r_item. cbv beta iota. cbn [map]. rewrite last_cons. apply IH.
Qed.
Lemma r_done : forall n next ys, runs1 (thenp drain next) next n ys ([], []).
Proof.
  intros n next. induction ys as [|y ys IH]; rewrite (frob_eq (thenp _ _)); cbn [frob thenp drain].
  - apply r_end. rewrite thenp_end. apply r_stop.
  - apply r_item. exact IH.
Qed.
Lemma r_down : forall n next (items : list item) k, k <= length items -> runs1 (thenp (down_loop items k) next) next n [] (map CallF (rev (firstn k items)) ++ [RetU], []).
Proof.
  intros n next items. induction k as [|i IH]; intros L; cbn [down_loop].
  - unf. rewrite thenp_end. apply r_say, r_stop.
  - destruct (nth_error items i) as [x|] eqn:Q; [|apply nth_error_None in Q; lia]. unf.
    assert (F : firstn (S i) items = firstn i items ++ [x]).
    { clear -Q. revert i Q. induction items as [|y l IHl]; intros [|i] Q; cbn in *; try discriminate; [now inversion Q|]. now rewrite <- (IHl _ Q). }
    rewrite F, rev_app_distr. cbn [rev app map]. apply r_say, IH. lia.
Qed.
Lemma r_ordered : forall n next ys acc, runs1 (thenp (collect acc (fun items => down_loop items (length items))) next) next n ys (map CallF (rev (acc ++ ys)) ++ [RetU], []).
Proof.
  intros n next. induction ys as [|y ys IH]; intros acc; rewrite (frob_eq (thenp _ _)); cbn [frob thenp collect].
  - apply r_end. rewrite app_nil_r. pose proof (r_down n next acc (length acc) (le_n _)) as D. rewrite firstn_all in D. exact D.
  - apply r_item. specialize (IH (acc ++ [y])). rewrite <- app_assoc in IH. exact IH.
Qed.
Lemma r_any : forall n next f ys, runs1 (anymach_u f next) next n ys (outcome (UAnyMach f) ys).
Proof.
  intros n next f. induction ys as [|y ys IH]; rewrite (frob_eq (anymach_u _ _)); cbn [frob anymach_u outcome upto].
  - apply r_end. apply r_say, r_stop.
  - cbn [outcome] in IH. destruct (f y) eqn:Fy.
    + apply r_item. rewrite Fy. apply r_say, r_go.
    + destruct (upto f ys) as [g [r|]]; apply r_item; rewrite Fy; apply r_say, IH.
Qed.
Lemma r_all : forall n next f ys, runs1 (allmach_u f next) next n ys (outcome (UAllMach f) ys).
Proof.
  intros n next f. induction ys as [|y ys IH]; rewrite (frob_eq (allmach_u _ _)); cbn [frob allmach_u outcome upto].
  - apply r_end. apply r_say, r_stop.
  - cbn [outcome] in IH. destruct (negb (f y)) eqn:Fy.
    + apply r_item. rewrite Fy. apply r_say, r_go.
    + destruct (upto _ ys) as [g [r|]]; apply r_item; rewrite Fy; apply r_say, IH.
Qed.
Lemma r_perform : forall n next u ys, runs1 (perform u next) next n ys (outcome u ys).
Proof.
  intros n next u ys. destruct u; cbn [perform].
  - apply (r_count n next ys 0).
  - apply r_foreach.
  - apply (r_ordered n next ys []).
  - apply r_findlast.
  - apply r_done.
  - destruct ys as [|y ys]; [apply r_end, r_say, r_stop|apply r_item, r_go].
  - apply r_any.
  - apply r_all.
Qed.
Lemma r_caller : forall n us ys s R, avail n ys s R -> exists tr s' R', steps hstep (s, caller us :: R) tr (s', PEnd :: R') /\ said 0 tr = results us ys.
Proof.
  intros n. induction us as [|u us IH]; intros ys s R V.
  - exists [], s, R. split; [constructor|reflexivity].
  - destruct (r_perform n (caller us) u ys s R V) as (t1 & s1 & R1 & A1 & A2 & A3).
    destruct (IH _ _ _ (A3 _ (subseq_refl _ _))) as (t2 & s2 & R2 & B1 & B2).
    exists (t1 ++ t2), s2, R2. split; [eapply steps_app; [exact A1|exact B1]|]. rewrite said_app, A2, B2. cbn [results]. now destruct (outcome u ys).
Qed.
Lemma one_run : forall n xs u us ys, subseq ys (snd (outcome u xs)) ->
  exists tr s R, steps hstep (shared xs n [caller (u :: us)]) tr (s, PEnd :: R) /\ said 0 tr = fst (outcome u xs) ++ results us ys.
Proof.
  intros n xs u us ys L. assert (V : avail n xs (source xs, Ch n [] false) []) by (exists xs; split; [constructor|auto]).
  destruct (r_perform n (caller us) u xs _ _ V) as (t1 & s1 & R1 & A1 & A2 & A3).
  destruct (r_caller n us ys _ _ (A3 _ L)) as (t2 & s2 & R2 & B1 & B2).
  exists (t1 ++ t2), s2, R2. split; [eapply steps_app; [exact A1|exact B1]|]. now rewrite said_app, A2, B2.
Qed.

(** ** Any division of the items among several callers *)
Lemma deal : forall n xs who R, length who = length xs -> Forall (fun j => j < length R) who -> Forall (fun p => p = caller [UForeach]) R ->
  exists tr, steps hstep (shared xs n R) tr (shared [] n R) /\
    forall j, taken_by j tr = share_of xs who j /\ said j tr = map CallF (share_of xs who j).
Proof.
  intros n. induction xs as [|x xs IH]; intros who R L B F; destruct who as [|i who]; cbn [length] in L; try discriminate.
  - exists []. split; [constructor|auto].
  - inversion B; subst. destruct (IH who R) as (t2 & A1 & A2); [lia|auto|auto|].
    destruct (nth_error R i) as [p|] eqn:Q; [|apply nth_error_None in Q; lia].
    assert (p = caller [UForeach]) by (rewrite Forall_forall in F; apply F; eapply nth_error_In; eauto). subst p.
    apply nth_error_split in Q as (l & r & -> & <-).
    assert (U : caller [UForeach] = PRecv (fun o => thenp (match o with Some x => PCall (CallF x) foreach_loop | None => PCall (@RetU A) PEnd end) PEnd)).
    { cbn [caller fold_right perform]. unfold Foreach. rewrite (frob_eq (thenp _ _)). reflexivity. }
    destruct (give n x xs l (fun o => thenp (match o with Some x => PCall (CallF x) foreach_loop | None => PCall (@RetU A) PEnd end) PEnd) r) as (t1 & B1 & B2 & B3 & B4).
    rewrite <- U in B1. cbv beta iota in B1. rewrite (frob_eq (thenp (PCall _ _) _)) in B1. cbn [frob thenp] in B1.
    exists (t1 ++ HDo (length l) (USaid (CallF x)) :: t2). split.
    + eapply steps_app; [exact B1|]. eapply steps_cons; [apply HCall; reflexivity|]. exact A1.
    + intros j. destruct (A2 j) as [E1 E2]. rewrite taken_by_app, said_app, B3, B4.
      change (taken_by j (HDo (length l) (USaid (CallF x)) :: t2)) with (taken_by j t2). rewrite E1.
      change (said j (HDo (length l) (USaid (CallF x)) :: t2)) with ((if length l =? j then [CallF x] else []) ++ said j t2). rewrite E2.
      unfold share_of. cbn [combine filter fst]. destruct (length l =? j); auto.
Qed.
End Uses.
