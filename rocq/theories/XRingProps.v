(** * Properties C33, C34 *)
From Coq Require Import ZArith List Bool Lia.
From Verif Require Import GoBase Trans XRingModel XRingSpec.
Import ListNotations.
Open Scope Z_scope.

Section P.
Context {V : Type} (nilv : V).

(** r holds the newest values of the history l. *)
Definition rinv (n : Z) (r : ring V) (l : list V) : Prop :=
  1 <= n /\ zlen (elems r) = n /\ index r = zlen l /\
  forall j, zlen l - n <= j < zlen l -> 0 <= j ->
    nth_error (elems r) (Z.to_nat (j mod n)) = nth_error l (Z.to_nat j).

Lemma list_set_length : forall (l : list V) k v, length (list_set l k v) = length l.
Proof. induction l as [|x l IH]; destruct k; cbn; intros; auto. Qed.
Lemma list_set_same : forall (l : list V) k v, (k < length l)%nat -> nth_error (list_set l k v) k = Some v.
Proof. induction l as [|x l IH]; destruct k; cbn; intros; auto; try lia. apply IH. lia. Qed.
Lemma list_set_other : forall (l : list V) k j v, k <> j -> nth_error (list_set l k v) j = nth_error l j.
Proof. induction l as [|x l IH]; destruct k, j; cbn; intros; auto; try congruence. Qed.

Lemma rinv_new : forall n r, NewRing nilv n = Ok r -> rinv n r [].
Proof.
  intros n r H. unfold NewRing in H. destruct (Z.ltb_spec n 1); [discriminate|]. inversion H; subst.
  split; [lia|]. cbn [elems index]. unfold zlen. rewrite repeat_length. cbn [length]. split; [lia|]. split; [reflexivity|]. intros j A B. lia.
Qed.

Lemma gorem_ok : forall a n, 0 <= a -> 1 <= n -> gorem a n = Ok (a mod n).
Proof. intros a n A B. unfold gorem. destruct (Z.eqb_spec n 0); [lia|]. rewrite Z.rem_mod_nonneg by lia. reflexivity. Qed.

Lemma mod_near_inj : forall n a b, 1 <= n -> a mod n = b mod n -> - n < a - b < n -> a = b.
Proof.
  intros n a b N E D. assert ((a - b) mod n = 0) by (rewrite Zminus_mod, E, Z.sub_diag; apply Z.mod_0_l; lia).
  apply Z.mod_divide in H; [|lia]. destruct H as [c H]. assert (c = 0) by nia. lia.
Qed.

Lemma add_write_ok : forall n r l v, rinv n r l ->
  add_write r v = Ok (Ring (list_set (elems r) (Z.to_nat (index r mod n)) v) (index r)).
Proof.
  intros n r l v (N & E & I & _). unfold add_write. assert (0 <= index r) by (rewrite I; apply zlen_nonneg).
  rewrite E, gorem_ok by lia. cbn. unfold store. rewrite E.
  pose proof (Z.mod_pos_bound (index r) n ltac:(lia)).
  destruct (Z.leb_spec 0 (index r mod n)); [|lia]. destruct (Z.ltb_spec (index r mod n) n); [|lia]. reflexivity.
Qed.

Lemma rinv_add : forall n r l v r', rinv n r l -> zlen l + 1 < 2^63 -> add_write r v = Ok r' -> rinv n (add_bump r') (l ++ [v]).
Proof.
  intros n r l v r' H B W. rewrite (add_write_ok _ _ _ _ H) in W. inversion W; subst r'. destruct H as (N & E & I & H).
  pose proof (zlen_nonneg l). pose proof (Z.mod_pos_bound (index r) n ltac:(lia)) as MB.
  unfold add_bump. split; auto. cbn [elems index]. split; [unfold zlen in *; now rewrite list_set_length|].
  rewrite zlen_app. change (zlen [v]) with 1. split; [rewrite I; apply wrap64_id; unfold is_int, min_int, max_int; lia|].
  intros j Hj Hj0. destruct (Z.eq_dec j (zlen l)) as [->|Nj].
  - rewrite I in *. rewrite list_set_same by (unfold zlen in *; lia). symmetry. unfold zlen. rewrite Nat2Z.id.
    rewrite nth_error_app2, Nat.sub_diag by lia. reflexivity.
  - rewrite list_set_other.
    + rewrite H by lia. rewrite nth_error_app1 by (unfold zlen in *; lia). reflexivity.
    + intros X. pose proof (Z.mod_pos_bound j n ltac:(lia)). apply Z2Nat.inj in X; try lia. rewrite I in X.
      apply mod_near_inj in X; lia.
Qed.

Lemma adds_app : forall l1 l2 (r : ring V), adds r (l1 ++ l2) = res_bind (adds r l1) (fun r' => adds r' l2).
Proof. induction l1 as [|v l1 IH]; intros; cbn; auto. destruct (Add r v); cbn; auto. Qed.

Lemma rinv_adds : forall l n r, NewRing nilv n = Ok r -> zlen l < 2^63 -> exists r', adds r l = Ok r' /\ rinv n r' l.
Proof.
  induction l as [|v l IH] using rev_ind; intros n r H B.
  - exists r. split; auto. now apply rinv_new.
  - rewrite zlen_app in B. change (zlen [v]) with 1 in B. destruct (IH n r H) as (r' & A & I); [lia|].
    rewrite adds_app, A. cbn. unfold Add. pose proof (add_write_ok _ _ _ v I) as W. rewrite W. cbn [res_map res_bind].
    eexists. split; [reflexivity|]. eapply rinv_add; eauto.
Qed.

(** Bounds computed by Take. *)
Definition start_of (n : Z) (r : ring V) : Z := if index r >? n then index r mod n else 0.

Lemma bounds_ok : forall n r l, rinv n r l -> take_bounds r = Ok (Z.min n (zlen l), start_of n r).
Proof.
  intros n r l (N & E & I & H). unfold take_bounds, start_of. rewrite E, I. pose proof (zlen_nonneg l).
  rewrite Z.gtb_ltb. destruct (Z.ltb_spec n (zlen l)).
  - rewrite gorem_ok by lia. cbn. f_equal. f_equal. lia.
  - f_equal. f_equal. lia.
Qed.

Lemma nth_error_skipn' : forall {A} (l : list A) a i, nth_error (skipn a l) i = nth_error l (a + i).
Proof. induction l as [|x l IH]; destruct a; intros; cbn; auto. now rewrite nth_error_nil || destruct i. Qed.

Lemma read_ok : forall n r l i, rinv n r l -> 0 <= i < Z.min n (zlen l) ->
  exists x, take_read r (start_of n r) i = Ok x /\ nth_error (lastn (Z.to_nat n) l) (Z.to_nat i) = Some x.
Proof.
  intros n r l i (N & E & I & H) B. pose proof (zlen_nonneg l) as Z0.
  assert (S0 : 0 <= start_of n r).
  { unfold start_of. destruct (index r >? n); [|lia]. pose proof (Z.mod_pos_bound (index r) n ltac:(lia)). lia. }
  unfold take_read. rewrite E, gorem_ok by lia. cbn [res_bind].
  set (j := zlen l - Z.min n (zlen l) + i).
  assert (J : (start_of n r + i) mod n = j mod n).
  { unfold start_of, j. rewrite I. rewrite Z.gtb_ltb. destruct (Z.ltb_spec n (zlen l)).
    - rewrite Z.min_l by lia. rewrite Z.add_mod_idemp_l by lia. replace (zlen l - n + i) with (zlen l + i + (-1) * n) by lia.
      now rewrite Z.mod_add by lia.
    - rewrite Z.min_r by lia. f_equal. lia. }
  rewrite J. pose proof (Z.mod_pos_bound j n ltac:(lia)) as MB.
  destruct (idx_ok (elems r) (j mod n)) as (x & A & X); [lia|]. exists x. split; auto.
  rewrite H in A by (unfold j; lia). unfold lastn. rewrite <- A.
  rewrite nth_error_skipn'. f_equal. unfold j, zlen in *. lia.
Qed.

Lemma nth_error_ext' : forall {A} (a b : list A), (forall k, nth_error a k = nth_error b k) -> a = b.
Proof.
  induction a as [|x a IH]; destruct b as [|y b]; intros H; auto; try (specialize (H 0%nat); discriminate).
  pose proof (H 0%nat) as H0. cbn in H0. inversion H0; subst. f_equal. apply IH. intros k. apply (H (S k)).
Qed.

Lemma skipn_cons_nth : forall {A} (l : list A) i x, nth_error l i = Some x -> skipn i l = x :: skipn (S i) l.
Proof. induction l as [|y l IH]; destruct i; cbn; intros; try discriminate; [congruence|]. apply IH. auto. Qed.
Lemma firstn_S_nth : forall {A} (l : list A) i x, nth_error l i = Some x -> firstn (S i) l = firstn i l ++ [x].
Proof. induction l as [|y l IH]; destruct i; cbn; intros; try discriminate; [congruence|]. f_equal. apply IH. auto. Qed.

Lemma lastn_length : forall n (l : list V), 0 <= n -> zlen (lastn (Z.to_nat n) l) = Z.min n (zlen l).
Proof. intros. unfold lastn, zlen. rewrite skipn_length. lia. Qed.

Lemma loop_ok : forall n r l k i, rinv n r l -> 0 <= i -> i + Z.of_nat k = Z.min n (zlen l) ->
  take_loop r (start_of n r) i k = Ok (skipn (Z.to_nat i) (lastn (Z.to_nat n) l)).
Proof.
  induction k as [|k IH]; intros i I I0 E.
  - cbn. f_equal. symmetry. apply skipn_all2. pose proof (lastn_length n l). destruct I as (N & _). unfold zlen in *. lia.
  - cbn. destruct (read_ok n r l i I ltac:(lia)) as (x & R & X). rewrite R. cbn. rewrite IH by (auto; lia). cbn. f_equal.
    replace (Z.to_nat (i + 1)) with (S (Z.to_nat i)) by lia. symmetry. now apply skipn_cons_nth.
Qed.

Lemma take_ok : forall n r l, rinv n r l -> Take r = Ok (lastn (Z.to_nat n) l).
Proof.
  intros n r l I. unfold Take. rewrite (bounds_ok _ _ _ I). cbn. pose proof (zlen_nonneg l). assert (1 <= n) by apply I.
  destruct (Z.ltb_spec (Z.min n (zlen l)) 0); [lia|]. rewrite (loop_ok n r l) by (auto; lia). reflexivity.
Qed.

(** NewRing panics exactly for n < 1; after any k < 2^63 Adds, none of which panics, Take
    returns the last min(n,k) values, oldest first.  (Take returns no new ring: it does
    not change it.) *)
Theorem C33_new : forall n, NewRing nilv n = Panic <-> n < 1.
Proof. intros n. unfold NewRing. destruct (Z.ltb_spec n 1); split; intros; try lia; try discriminate; auto. Qed.

Theorem C33_take : forall n l, 1 <= n -> zlen l < 2^63 -> exists r r',
  NewRing nilv n = Ok r /\ adds r l = Ok r' /\ Take r' = Ok (lastn (Z.to_nat n) l).
Proof.
  intros n l N B. destruct (NewRing nilv n) as [r|] eqn:E; [|apply C33_new in E; lia].
  destruct (rinv_adds l n r E B) as (r' & A & I). exists r, r'. split; auto. split; auto. now apply take_ok.
Qed.

(** The same for the ring inside xstream (C64 uses it). *)
Theorem C33_stream_ring : forall n l, 1 <= n -> zlen l < 2^63 -> exists r',
  adds (newRing nilv n) l = Ok r' /\ Take r' = Ok (lastn (Z.to_nat n) l).
Proof.
  intros n l N B. destruct (C33_take n l N B) as (r & r' & E & A & T). exists r'. unfold NewRing in E.
  destruct (Z.ltb_spec n 1); [lia|]. inversion E; subst. auto.
Qed.

(** At the 2^63-th Add the counter wraps: the next Take panics. *)
Theorem C33_overflow_refuted : forall n l r r', NewRing nilv n = Ok r -> zlen l = 2^63 -> adds r l = Ok r' -> Take r' = Panic.
Proof.
  intros n l r r' H Z A. destruct (@exists_last _ l) as (l0 & v & ->). { intros ->. discriminate. }
  rewrite zlen_app in Z. change (zlen [v]) with 1 in Z. destruct (rinv_adds l0 n r H) as (r0 & A0 & I); [lia|].
  rewrite adds_app, A0 in A. cbn in A. unfold Add in A. rewrite (add_write_ok _ _ _ v I) in A. cbn in A. inversion A; subst r'. clear A.
  destruct I as (N & E & I & _). unfold Take, take_bounds, add_bump. cbn [index elems].
  assert (W : wrap64 (index r0 + 1) = - 2^63). { rewrite I. replace (zlen l0 + 1) with (2^63) by lia. reflexivity. }
  rewrite W. assert (E' : zlen (list_set (elems r0) (Z.to_nat (index r0 mod n)) v) = n) by (unfold zlen in *; now rewrite list_set_length).
  rewrite E'. rewrite Z.gtb_ltb. destruct (Z.ltb_spec n (- 2^63)); [lia|]. reflexivity.
Qed.

(** ** Concurrency *)
Notation exec' n := (exec (cinit nilv n) (@cstep V)).

Definition wcrit (p : pc V) : Prop := match p with AWrite _ | ABump _ | AUnlock _ => True | _ => False end.
Definition rcrit (p : pc V) : Prop := match p with TBounds | TLoop _ _ _ _ | TUnlock _ => True | _ => False end.

Definition cinv (n : Z) (s : cstate V) (log : list V) : Prop :=
  (forall t, wcrit (pcs s t) <-> wr s = Some t) /\
  (forall t, rcrit (pcs s t) <-> rd s t = true) /\
  (forall t u, wr s = Some t -> rd s u = false) /\
  match wr s with
  | None => rinv n (cring s) log
  | Some t => match pcs s t with
              | AWrite v => rinv n (cring s) log
              | ABump v => exists r, rinv n r log /\ add_write r v = Ok (cring s)
              | AUnlock v => zlen log + 1 < 2^63 -> rinv n (cring s) (log ++ [v])
              | _ => False
              end
  end /\
  (forall t, match pcs s t with
   | TLoop size start i acc => size = Z.min n (zlen log) /\ start = start_of n (cring s) /\ 0 <= i <= size /\
       acc = firstn (Z.to_nat i) (lastn (Z.to_nat n) log)
   | TUnlock xs => xs = lastn (Z.to_nat n) log
   | Dead => False
   | _ => True
   end).

Lemma added_app : forall a b : list (label V), added (a ++ b) = added a ++ added b.
Proof. induction a as [|l a IH]; intros; auto. destruct l; cbn; rewrite IH; auto. Qed.

Ltac uc := unfold upd in *; cbn [pcs wr rd cring] in *.

Lemma cinv_step : forall n s l s' log, cinv n s log -> cstep s l s' ->
  zlen (log ++ added [l]) < 2^63 -> cinv n s' (log ++ added [l]).
Proof.
  intros n s l s' log (W & R & X & M & P) St B.
  assert (RW : forall t, rcrit (pcs s t) -> wr s = None).
  { intros t H. apply R in H. destruct (wr s) as [w|] eqn:E; auto. rewrite (X w t eq_refl) in H. discriminate. }
  assert (NRW : forall t u, wcrit (pcs s t) -> ~ rcrit (pcs s u)).
  { intros t u H1 H2. apply RW in H2. apply W in H1. congruence. }
  inversion St; subst; cbn [added] in *; rewrite ?app_nil_r in *; unfold go in *; uc.
  - (* call add *) split; [|split; [|split; [|split]]]; cbn; auto.
    + intros u. destruct (Nat.eqb_spec t u) as [<-|N]; auto. split; [intros []|]. intros E. apply W in E. rewrite H in E. destruct E.
    + intros u. destruct (Nat.eqb_spec t u) as [<-|N]; auto. split; [intros []|]. intros E. apply R in E. rewrite H in E. destruct E.
    + destruct (wr s) as [w|] eqn:E; auto. destruct (Nat.eqb_spec t w) as [<-|N]; auto. rewrite H in M. destruct M.
    + intros u. destruct (Nat.eqb_spec t u) as [<-|N]; auto. apply P.
  - split; [|split; [|split; [|split]]]; cbn; auto.
    + intros u. destruct (Nat.eqb_spec t u) as [<-|N]; auto. split; [intros []|]. intros E. apply W in E. rewrite H in E. destruct E.
    + intros u. destruct (Nat.eqb_spec t u) as [<-|N]; auto. split; [intros []|]. intros E. apply R in E. rewrite H in E. destruct E.
    + destruct (wr s) as [w|] eqn:E; auto. destruct (Nat.eqb_spec t w) as [<-|N]; auto. rewrite H in M. destruct M.
    + intros u. destruct (Nat.eqb_spec t u) as [<-|N]; auto. apply P.
  - (* lock *) rewrite H0 in *. split; [|split; [|split; [|split]]]; cbn; auto.
    + intros u. destruct (Nat.eqb_spec t u) as [<-|N]; [split; auto; intros; exact I|]. split; [|congruence].
      intros E. apply W in E. discriminate.
    + intros u. destruct (Nat.eqb_spec t u) as [<-|N]; auto. cbn. rewrite ?H1; auto; try (split; [intros []|discriminate]).
    + rewrite Nat.eqb_refl. exact M.
    + intros u. destruct (Nat.eqb_spec t u) as [<-|N]; cbn; auto. apply P.
  - (* write *)
    assert (wr s = Some t) by (apply W; now rewrite H). rewrite H1, H in *. 
    split; [|split; [|split; [|split]]]; cbn; auto.
    + intros u. destruct (Nat.eqb_spec t u) as [<-|N]; [split; auto; intros; exact I|]. rewrite ?H1; auto; try (auto).
    + intros u. destruct (Nat.eqb_spec t u) as [<-|N]; auto. cbn. rewrite (X t t) by auto. split; [intros []|discriminate].
    + rewrite Nat.eqb_refl. eauto.
    + intros u. destruct (Nat.eqb_spec t u) as [<-|N]; cbn; auto. specialize (P u). assert (~ rcrit (pcs s u)).
      { apply NRW with t. now rewrite H. }
      destruct (pcs s u); auto; destruct H2; exact I.
  - (* write panic: impossible *)
    assert (wr s = Some t) by (apply W; now rewrite H). rewrite H1, H in *. rewrite (add_write_ok _ _ _ _ M) in H0. discriminate.
  - (* bump *)
    assert (wr s = Some t) by (apply W; now rewrite H). rewrite H0, H in *. 
    split; [|split; [|split; [|split]]]; cbn; auto.
    + intros u. destruct (Nat.eqb_spec t u) as [<-|N]; [split; auto; intros; exact I|]. rewrite ?H0; auto; try (auto).
    + intros u. destruct (Nat.eqb_spec t u) as [<-|N]; auto. cbn. rewrite (X t t) by auto. split; [intros []|discriminate].
    + rewrite Nat.eqb_refl. intros B'. destruct M as (r & M1 & M2). eapply rinv_add; eauto.
    + intros u. destruct (Nat.eqb_spec t u) as [<-|N]; cbn; auto. specialize (P u). assert (~ rcrit (pcs s u)).
      { apply NRW with t. now rewrite H. }
      destruct (pcs s u); auto; destruct H1; exact I.
  - (* unlock *)
    assert (wr s = Some t) by (apply W; now rewrite H). rewrite H0, H in *. 
    split; [|split; [|split; [|split]]]; cbn; auto.
    + intros u. destruct (Nat.eqb_spec t u) as [<-|N]; [split; [intros []|discriminate]|]. split; [|discriminate].
      intros E. apply W in E. congruence.
    + intros u. destruct (Nat.eqb_spec t u) as [<-|N]; auto. cbn. rewrite (X t t) by auto. split; [intros []|discriminate].
    + discriminate.
    + apply M. rewrite zlen_app in B. exact B.
    + intros u. destruct (Nat.eqb_spec t u) as [<-|N]; cbn; auto. specialize (P u). assert (~ rcrit (pcs s u)).
      { apply NRW with t. now rewrite H. }
      destruct (pcs s u); auto; destruct H1; exact I.
  - (* rlock *) rewrite H0 in *. split; [|split; [|split; [|split]]]; cbn; auto.
    + intros u. destruct (Nat.eqb_spec t u) as [<-|N]; auto. split; [intros []|]. discriminate.
    + intros u. destruct (Nat.eqb_spec t u) as [<-|N]; auto. split; auto; intros; exact I.
    + discriminate.
    + intros u. destruct (Nat.eqb_spec t u) as [<-|N]; cbn; auto. apply P.
  - (* bounds *)
    assert (wr s = None) by (apply (RW t); now rewrite H). rewrite H2 in *. rewrite (bounds_ok _ _ _ M) in H0. inversion H0; subst size start.
    split; [|split; [|split; [|split]]]; cbn; auto.
    + intros u. destruct (Nat.eqb_spec t u) as [<-|N]; auto. rewrite ?H2; split; [intros []|discriminate].
    + intros u. destruct (Nat.eqb_spec t u) as [<-|N]; auto. cbn. rewrite <- R, H. tauto.
    + intros u. destruct (Nat.eqb_spec t u) as [<-|N]; cbn; auto; [|apply P]. repeat split; auto; lia.
  - (* bounds panic: impossible *)
    assert (wr s = None) by (apply (RW t); now rewrite H). rewrite H1 in *. pose proof (zlen_nonneg log).
    assert (1 <= n) by apply M. rewrite (bounds_ok _ _ _ M) in H0. destruct H0 as [H0|(sz & st & H0 & H4)]; [discriminate|]. inversion H0; subst. lia.
  - (* read *)
    assert (wr s = None) by (apply (RW t); now rewrite H). rewrite H2 in *. pose proof (P t) as Pt. rewrite H in Pt.
    destruct Pt as (P1 & P2 & P3 & P4). subst size start.
    destruct (read_ok n (cring s) log i M ltac:(lia)) as (x' & R1 & R2). assert (x' = x) by congruence. subst x'.
    split; [|split; [|split; [|split]]]; cbn; auto.
    + intros u. destruct (Nat.eqb_spec t u) as [<-|N]; auto. rewrite ?H2; split; [intros []|discriminate].
    + intros u. destruct (Nat.eqb_spec t u) as [<-|N]; auto. cbn. rewrite <- R, H. tauto.
    + intros u. destruct (Nat.eqb_spec t u) as [<-|N]; cbn; auto; [|apply P]. split; auto. split; auto. split; [lia|].
      rewrite P4. replace (Z.to_nat (i + 1)) with (S (Z.to_nat i)) by lia. symmetry. now apply firstn_S_nth.
  - (* read panic: impossible *)
    assert (wr s = None) by (apply (RW t); now rewrite H). rewrite H2 in *. pose proof (P t) as Pt. rewrite H in Pt.
    destruct Pt as (P1 & P2 & P3 & P4). subst size start.
    destruct (read_ok n (cring s) log i M ltac:(lia)) as (x' & R1 & R2). congruence.
  - (* read done *)
    assert (wr s = None) by (apply (RW t); now rewrite H). rewrite H1 in *. pose proof (P t) as Pt. rewrite H in Pt.
    destruct Pt as (P1 & P2 & P3 & P4). subst size start.
    split; [|split; [|split; [|split]]]; cbn; auto.
    + intros u. destruct (Nat.eqb_spec t u) as [<-|N]; auto. rewrite ?H1; split; [intros []|discriminate].
    + intros u. destruct (Nat.eqb_spec t u) as [<-|N]; auto. cbn. rewrite <- R, H. tauto.
    + intros u. destruct (Nat.eqb_spec t u) as [<-|N]; cbn; auto; [|apply P]. rewrite P4. apply firstn_all2.
      pose proof (lastn_length n log). assert (1 <= n) by apply M. unfold zlen in *. lia.
  - (* runlock *)
    assert (wr s = None) by (apply (RW t); now rewrite H). rewrite H0 in *.
    split; [|split; [|split; [|split]]]; cbn; auto.
    + intros u. destruct (Nat.eqb_spec t u) as [<-|N]; auto. split; [intros []|]. discriminate.
    + intros u. destruct (Nat.eqb_spec t u) as [<-|N]; auto. cbn. split; [intros []|discriminate].
    + discriminate.
    + intros u. destruct (Nat.eqb_spec t u) as [<-|N]; cbn; auto. apply P.
Qed.

Lemma cinv_exec : forall n tr s, exec' n tr s -> zlen (added tr) < 2^63 -> cinv n s (added tr).
Proof.
  intros n. apply (exec_ind_inv _ _ (fun tr s => zlen (added tr) < 2^63 -> cinv n s (added tr))).
  - intros s (A & B & C & D) _. unfold cinv. rewrite B. split; [|split; [|split; [|split]]].
    + intros t. rewrite D. split; [intros []|discriminate].
    + intros t. rewrite C, D. split; [intros []|discriminate].
    + discriminate.
    + now apply rinv_new.
    + intros t. rewrite D. exact I.
  - intros tr s l s' _ IH St B. rewrite added_app in *. eapply cinv_step; eauto. apply IH.
    rewrite zlen_app in B. pose proof (zlen_nonneg (added [l])). lia.
Qed.

(** Every Take, in every interleaving, returns the newest min(n,k) of the k values whose
    Add released the lock before that Take did, in that order. *)
Theorem C34_take : forall n tr1 t xs tr2 s, exec' n (tr1 ++ LTake t xs :: tr2) s ->
  zlen (added tr1) < 2^63 -> xs = lastn (Z.to_nat n) (added tr1).
Proof.
  intros n tr1 t xs tr2 s H B. apply exec_app_inv in H. destruct H as (s1 & H & St).
  apply steps_cons_inv in St. destruct St as (s2 & St & _). apply cinv_exec in H; auto.
  destruct H as (_ & _ & _ & _ & P). inversion St; subst. specialize (P t). match goal with E : pcs _ t = _ |- _ => now rewrite E in P end.
Qed.

(** No goroutine panics. *)
Theorem C34_no_panic : forall n tr s, exec' n tr s -> zlen (added tr) < 2^63 -> forall t, pcs s t <> Dead.
Proof. intros n tr s H B t E. apply cinv_exec in H; auto. destruct H as (_ & _ & _ & _ & P). specialize (P t). now rewrite E in P. Qed.

(** The Adds are exactly those of the trace, each exactly once, in release order: two
    goroutines never are inside the lock together. *)
Theorem C34_exclusive : forall n tr s t u, exec' n tr s -> zlen (added tr) < 2^63 ->
  wcrit (pcs s t) -> (wcrit (pcs s u) -> u = t) /\ ~ rcrit (pcs s u).
Proof.
  intros n tr s t u H B Wt. apply cinv_exec in H; auto. destruct H as (W & R & X & _). apply W in Wt. split.
  - intros Wu. apply W in Wu. congruence.
  - intros Ru. apply R in Ru. rewrite (X t u) in Ru by auto. discriminate.
Qed.
End P.

Example C33_ex : exists r r', NewRing 0 3 = Ok r /\ adds r [1;2;3;4;5] = Ok r' /\ Take r' = Ok [3;4;5].
Proof. eexists _, _. repeat split; reflexivity. Qed.

Example C34_ex : exists s, exec (cinit 0 2) cstep
  [LCall 0 (Some 7); LCall 1 None; LCall 2 (Some 8); LTau 0; LTau 0; LTau 0; LAdd 0 7;
   LTau 1; LTau 1; LTau 1; LTau 1; LTake 1 [7]] s.
Proof.
  eexists. exists (CS (Ring [0;0] 0) None (fun _ => false) (fun _ => Idle)). split.
  { repeat split. }
  run (apply (CCallAdd _ _ 0%nat 7); reflexivity).
  run (apply (CCallTake _ _ 1%nat); reflexivity).
  run (apply (CCallAdd _ _ 2%nat 8); reflexivity).
  run (eapply (CLock _ _ 0%nat); reflexivity).
  run (eapply (CWrite _ _ 0%nat); reflexivity).
  run (eapply (CBump _ _ 0%nat); reflexivity).
  run (eapply (CUnlock _ _ 0%nat); reflexivity).
  run (eapply (CRLock _ _ 1%nat); reflexivity).
  run (eapply (CBounds _ _ 1%nat); [reflexivity|reflexivity|vm_compute; discriminate]).
  run (eapply (CRead _ _ 1%nat); reflexivity).
  run (eapply (CReadDone _ _ 1%nat); [reflexivity|vm_compute; discriminate]).
  run (eapply (CRUnlock _ _ 1%nat); reflexivity).
  constructor.
Qed.

Print Assumptions C33_take. Print Assumptions C33_overflow_refuted.
Print Assumptions C34_take. Print Assumptions C34_no_panic. Print Assumptions C34_exclusive.
