(** * Proofs for the ResourceManager *)
From Coq Require Import List Bool Lia Arith.
From stdpp Require Import gmap.
From Verif Require Import Trans RMModel RMSpec.

Definition lead (p : rpc) : option (nat * nat) :=
  match p with
  | GRLock k f | GRead k f | GRUn k f _ | GCreate k f | GIn k f | GLock k f _ | GWrite k f _ | GUn k f _ | GDone k f _ | GForget k f _ => Some (k, f)
  | _ => None
  end.
(** The result is not there yet *)
Definition lead0 (p : rpc) : option (nat * nat) :=
  match p with GForget _ _ _ => None | _ => lead p end.
Definition writer (p : rpc) : bool :=
  match p with GWrite _ _ _ | GUn _ _ _ | CLoop _ _ | CUn _ | MDo _ | MUn _ _ => true | _ => false end.
Definition reader (p : rpc) : bool := match p with GRead _ _ | GRUn _ _ _ => true | _ => false end.

Record RInv (s : rstate) : Prop := {
  r_lead : forall t k f, lead (rp s t) = Some (k, f) -> fl s k = Some f;
  r_uniq : forall t u k f f', lead (rp s t) = Some (k, f) -> lead (rp s u) = Some (k, f') -> t = u;
  r_fl : forall k f, fl s k = Some f -> f < nf s;
  r_lead0 : forall t k f, lead0 (rp s t) = Some (k, f) -> rs s f = None;
  r_forget : forall t k f o, rp s t = GForget k f o -> rs s f = Some o;
  r_has : forall k f, fl s k = Some f -> exists t, lead (rp s t) = Some (k, f);
  r_inj : forall k k' f, fl s k = Some f -> fl s k' = Some f -> k = k';
  r_wait : forall t k f, rp s t = GWait k f -> f < nf s /\ (fl s k = Some f \/ rs s f <> None);
  r_ret : forall t k f o, rp s t = GRet k f o -> rs s f = Some o;
  r_rs : forall f o, rs s f = Some o -> f < nf s;
  r_wr : forall t, writer (rp s t) = true -> wr s = Some t;
  r_rd : exists L, List.NoDup L /\ length L = rd s /\ forall t, In t L <-> reader (rp s t) = true;
  r_ex : wr s <> None -> rd s = 0
}.

Ltac ucase := unfold upd in *; repeat match goal with
  | H : context [Nat.eqb ?a ?b] |- _ => destruct (Nat.eqb_spec a b); subst
  | |- context [Nat.eqb ?a ?b] => destruct (Nat.eqb_spec a b); subst end.

Lemma rinv_init : forall s, rinit s -> RInv s.
Proof.
  intros s (A & B & C & D & E & G). split; intros; repeat match goal with X : context [rp s ?t] |- _ => rewrite (G t) in X; cbn in X end; try discriminate; try congruence;
    try (match goal with X : fl s _ = Some _ |- _ => rewrite D in X; discriminate end);
    try (match goal with X : rs s _ = Some _ |- _ => rewrite E in X; discriminate end).
  exists []. split; [constructor|]. split; [now rewrite C|]. intros t. rewrite G. cbn. split; [easy|discriminate].
Qed.

Lemma rd_same : forall (p : nat -> rpc) t x n, reader (p t) = reader x ->
  (exists L, List.NoDup L /\ length L = n /\ forall t, In t L <-> reader (p t) = true) ->
  exists L, List.NoDup L /\ length L = n /\ forall u, In u L <-> reader (upd p t x u) = true.
Proof. intros p t x n E (L & A & B & C). exists L. split; auto. split; auto. intros u. rewrite C. ucase; [|tauto]. now rewrite E. Qed.

Ltac rcases St E E2 :=
  inversion St as [m w n F R N p t k E|m w n F R N p t k E E2|m w n F R N p t k f E E2|m n F R N p t k f E|m w n F R N p t k f E
    |m w n F R N p t k f o E|m w n F R N p t k f E|m w n F R N p t k f c E|m F R N p t k f r E|m w n F R N p t k f r E|w n F R N p t k f r E
    |m w n F R N p t k f r E|m w n F R N p t k f o E|m w n F R N p t k f o E|m w n F R N p t k f o E E2|m w n F R N p t k f o E
    |m w n F R N p t E|m F R N p t l0 E E2|m w n F R N p t k r l0 errs c E|m w n F R N p t k l0 errs E|m w n F R N p t errs E
    |m w n F R N p t errs E|m w n F R N p t errs E|m w n F R N p t E
    |m w n F R N p t k E|m F R N p t k E|m w n F R N p t k b E E2|m w n F R N p t k b E|m w n F R N p t k b E];
    clear St; subst; cbn [rmap wr rd fl rs nf rp] in *.
Ltac rcases2 St E E2 :=
  inversion St as [m w n Ff Rr Nn p t k0 E|m w n Ff Rr Nn p t k0 E E2|m w n Ff Rr Nn p t k0 f1 E E2|m n Ff Rr Nn p t k0 f1 E|m w n Ff Rr Nn p t k0 f1 E
    |m w n Ff Rr Nn p t k0 f1 o1 E|m w n Ff Rr Nn p t k0 f1 E|m w n Ff Rr Nn p t k0 f1 c E|m Ff Rr Nn p t k0 f1 r0 E|m w n Ff Rr Nn p t k0 f1 r0 E|w n Ff Rr Nn p t k0 f1 r0 E
    |m w n Ff Rr Nn p t k0 f1 r0 E|m w n Ff Rr Nn p t k0 f1 o1 E|m w n Ff Rr Nn p t k0 f1 o1 E|m w n Ff Rr Nn p t k0 f1 o1 E E2|m w n Ff Rr Nn p t k0 f1 o1 E
    |m w n Ff Rr Nn p t E|m Ff Rr Nn p t l0 E E2|m w n Ff Rr Nn p t k0 r0 l0 errs c E|m w n Ff Rr Nn p t k0 l0 errs E|m w n Ff Rr Nn p t errs E
    |m w n Ff Rr Nn p t errs E|m w n Ff Rr Nn p t errs E|m w n Ff Rr Nn p t E
    |m w n Ff Rr Nn p t k0 E|m Ff Rr Nn p t k0 E|m w n Ff Rr Nn p t k0 b E E2|m w n Ff Rr Nn p t k0 b E|m w n Ff Rr Nn p t k0 b E];
    clear St; subst; cbn [rmap wr rd fl rs nf rp] in *.
Ltac rcases3 St E E2 :=
  inversion St as [m w n Ff Rr Nn p t0 k0 E|m w n Ff Rr Nn p t0 k0 E E2|m w n Ff Rr Nn p t0 k0 f1 E E2|m n Ff Rr Nn p t0 k0 f1 E|m w n Ff Rr Nn p t0 k0 f1 E
    |m w n Ff Rr Nn p t0 k0 f1 o1 E|m w n Ff Rr Nn p t0 k0 f1 E|m w n Ff Rr Nn p t0 k0 f1 c E|m Ff Rr Nn p t0 k0 f1 r0 E|m w n Ff Rr Nn p t0 k0 f1 r0 E|w n Ff Rr Nn p t0 k0 f1 r0 E
    |m w n Ff Rr Nn p t0 k0 f1 r0 E|m w n Ff Rr Nn p t0 k0 f1 o1 E|m w n Ff Rr Nn p t0 k0 f1 o1 E|m w n Ff Rr Nn p t0 k0 f1 o1 E E2|m w n Ff Rr Nn p t0 k0 f1 o1 E
    |m w n Ff Rr Nn p t0 E|m Ff Rr Nn p t0 l0 E E2|m w n Ff Rr Nn p t0 k0 r0 l0 errs c E|m w n Ff Rr Nn p t0 k0 l0 errs E|m w n Ff Rr Nn p t0 errs E
    |m w n Ff Rr Nn p t0 errs E|m w n Ff Rr Nn p t0 errs E|m w n Ff Rr Nn p t0 E
    |m w n Ff Rr Nn p t0 k0 E|m Ff Rr Nn p t0 k0 E|m w n Ff Rr Nn p t0 k0 b E E2|m w n Ff Rr Nn p t0 k0 b E|m w n Ff Rr Nn p t0 k0 b E];
    clear St; subst; cbn [rmap wr rd fl rs nf rp] in *.
Ltac bang := repeat match goal with
  | o : option _ |- _ => match goal with H : context [match o with _ => _ end] |- _ => destruct o end
  | c : created |- _ => destruct c; cbn [after_create] in *
  | c : closed |- _ => destruct c; cbn [after_close] in *
  end.

Lemma s_lead : forall s l s', RInv s -> rstep s l s' -> forall t k f, lead (rp s' t) = Some (k, f) -> fl s' k = Some f.
Proof.
  intros s l s' I St u k0 f0 L. pose proof (r_lead _ I) as I1. pose proof (r_uniq _ I) as I2. pose proof (r_inj _ I) as I4. clear I. rcases St E E2.
  all: pose proof (I1 t) as LT; rewrite E in LT; cbn [lead] in LT.
  all: ucase; cbn [lead] in *; bang; cbn [lead] in *; try discriminate; try (injection L as -> ->); auto; try congruence.
  all: try (apply I1 in L; congruence).
  assert (X := I2 t u). rewrite E in X. specialize (X _ _ _ eq_refl L). congruence.
Qed.
Lemma s_uniq : forall s l s', RInv s -> rstep s l s' -> forall t u k f f', lead (rp s' t) = Some (k, f) -> lead (rp s' u) = Some (k, f') -> t = u.
Proof.
  intros s l s' I St ta tb k0 f0 f0' L L'. pose proof (r_lead _ I) as I1. pose proof (r_uniq _ I) as I2. clear I. rcases St E E2.
  all: pose proof (fun b k0 f0 f1 => I2 t b k0 f0 f1) as LT; rewrite E in LT; cbn [lead] in LT.
  all: ucase; cbn [lead] in *; bang; cbn [lead] in *; try discriminate; try (injection L as <- <-); try (injection L' as <- <-); auto; try congruence; eauto.
  all: try (symmetry; eauto; fail).
  - apply I1 in L'. congruence.
  - apply I1 in L. congruence.
Qed.
Lemma s_fl : forall s l s', RInv s -> rstep s l s' -> forall k f, fl s' k = Some f -> f < nf s'.
Proof.
  intros s l s' I St k0 f0 L. pose proof (r_fl _ I) as I3. clear I. rcases St E E2; try exact (I3 _ _ L).
  - ucase; [injection L as ->; lia|]. apply I3 in L. lia.
  - ucase; [discriminate|]. exact (I3 _ _ L).
Qed.
Lemma lead0_lead : forall p k f, lead0 p = Some (k, f) -> lead p = Some (k, f).
Proof. intros []; cbn; auto; discriminate. Qed.
Lemma s_lead0 : forall s l s', RInv s -> rstep s l s' -> forall t k f, lead0 (rp s' t) = Some (k, f) -> rs s' f = None.
Proof.
  intros s l s' I St u k0 f0 L. pose proof (r_lead _ I) as I1. pose proof (r_uniq _ I) as I2. pose proof (r_inj _ I) as I4. pose proof (r_lead0 _ I) as I3. pose proof (r_rs _ I) as I7. clear I. rcases St E E2.
  all: pose proof (I3 t) as LT; rewrite E in LT; cbn [lead0 lead] in LT.
  all: match type of L with lead0 (upd ?pp ?tt ?x ?uu) = _ => destruct (upd_cases pp tt uu x) as [(-> & X)|(Q & X)]; rewrite X in L; clear X end; cbn [lead0 lead] in L; bang; cbn [lead0 lead] in *; try discriminate;
    try (injection L as -> ->); eauto.
  - destruct (R f0) eqn:X; auto. apply I7 in X. lia.
  - assert (L2 := lead0_lead _ _ _ L). rewrite upd_other; eauto. intros ->. pose proof (I1 t) as LE. rewrite E in LE. specialize (LE _ _ eq_refl).
    assert (k = k0) by (eapply I4; eauto). subst. apply Q. eapply (I2 u t); [exact L2|now rewrite E].
Qed.
Lemma s_forget : forall s l s', RInv s -> rstep s l s' -> forall t k f o, rp s' t = GForget k f o -> rs s' f = Some o.
Proof.
  intros s l s' I St u k0 f0 o0 L. pose proof (r_lead0 _ I) as I3. pose proof (r_forget _ I) as I6. clear I. rcases St E E2.
  all: try (match type of L with upd ?pp ?tt ?x ?uu = _ => destruct (upd_cases pp tt uu x) as [(-> & X)|(Q & X)]; rewrite X in L end;
     [cbn in L; bang; try discriminate|try (exact (I6 _ _ _ _ L))]).
  - injection L as -> -> ->. apply upd_same.
  - pose proof (I3 t) as LT. rewrite E in LT. specialize (LT _ _ eq_refl). apply I6 in L. rewrite upd_other; auto. congruence.
Qed.
Lemma s_has : forall s l s', RInv s -> rstep s l s' -> forall k f, fl s' k = Some f -> exists t, lead (rp s' t) = Some (k, f).
Proof.
  intros s l s' I St k' f' X. pose proof (r_has _ I) as IH. clear I.
  assert (KEEP : forall u, lead (rp s u) = Some (k', f') -> rp s' u = rp s u \/ lead (rp s' u) = Some (k', f') -> exists t, lead (rp s' t) = Some (k', f')).
  { intros u H [Y|Y]; exists u; [now rewrite Y|auto]. }
  rcases St E E2.
  2:{ ucase; [injection X as ->; exists t; now rewrite Nat.eqb_refl|]. destruct (IH _ _ X) as (u & U). exists u. destruct (Nat.eqb_spec t u) as [->|]; auto. rewrite E in U. discriminate. }
  all: try (destruct (IH _ _ X) as (u & U); apply (KEEP u U); destruct (Nat.eq_dec t u) as [->|N0]; [right; rewrite upd_same; rewrite E in U; cbn in *; try discriminate; try (bang; cbn; congruence); exact U|left; now rewrite upd_other]).
  destruct (Nat.eq_dec k k') as [->|N1]; [rewrite upd_same in X; discriminate|rewrite upd_other in X by auto].
  destruct (IH _ _ X) as (u & U). apply (KEEP u U). left. rewrite upd_other; auto. intros ->. rewrite E in U. cbn in U. congruence.
Qed.
Lemma s_inj : forall s l s', RInv s -> rstep s l s' -> forall k k' f, fl s' k = Some f -> fl s' k' = Some f -> k = k'.
Proof.
  intros s l s' I St k0 k0' f0 L L'. pose proof (r_fl _ I) as I3. pose proof (r_inj _ I) as I4. clear I. rcases St E E2; eauto.
  - ucase; auto; [injection L as ->; apply I3 in L'; lia|injection L' as ->; apply I3 in L; lia|eauto].
  - ucase; auto; try discriminate. eauto.
Qed.
Lemma s_wait : forall s l s', RInv s -> rstep s l s' -> forall t k f, rp s' t = GWait k f -> f < nf s' /\ (fl s' k = Some f \/ rs s' f <> None).
Proof.
  intros s l s' I St u k0 f0 L. pose proof (r_lead _ I) as I1. pose proof (r_fl _ I) as I3. pose proof (r_wait _ I) as I5. pose proof (r_forget _ I) as I6. clear I. rcases St E E2.
  all: try (destruct (upd_cases p t u (GRLock k N)) as [(-> & X)|(Q & X)]; rewrite X in L; [discriminate|]; destruct (I5 _ _ _ L) as (A & B);
     split; [lia|]; destruct B as [B|B]; auto; left; rewrite upd_other; auto; congruence).
  all: try (match type of L with upd ?pp ?tt ?x ?uu = _ => destruct (upd_cases pp tt uu x) as [(-> & X)|(Q & X)]; rewrite X in L end;
     [cbn in L; bang; try discriminate|try (exact (I5 _ _ _ L))]).
  - injection L as -> ->. split; auto. exact (I3 _ _ E2).
  - destruct (I5 _ _ _ L) as (A & B). split; auto. destruct B as [B|B]; auto. right. ucase; congruence.
  - pose proof (I1 t) as LT. rewrite E in LT. specialize (LT _ _ eq_refl). apply I6 in E. destruct (I5 _ _ _ L) as (A & B). split; auto. destruct B as [B|B]; ucase; auto; right; congruence.
Qed.
Lemma s_ret : forall s l s', RInv s -> rstep s l s' -> forall t k f o, rp s' t = GRet k f o -> rs s' f = Some o.
Proof.
  intros s l s' I St u k0 f0 o0 L. pose proof (r_lead _ I) as I1. pose proof (r_lead0 _ I) as I3. pose proof (r_forget _ I) as I5. pose proof (r_ret _ I) as I6. clear I. rcases St E E2.
  all: try (match type of L with upd ?pp ?tt ?x ?uu = _ => destruct (upd_cases pp tt uu x) as [(-> & X)|(Q & X)]; rewrite X in L end;
     [cbn in L; bang; try discriminate|try (exact (I6 _ _ _ _ L))]).
  - pose proof (I3 t) as LT. rewrite E in LT. specialize (LT _ _ eq_refl). apply I6 in L. rewrite upd_other; auto. congruence.
  - injection L as -> -> ->. eauto.
  - injection L as -> -> ->. auto.
Qed.
Lemma s_rs : forall s l s', RInv s -> rstep s l s' -> forall f o, rs s' f = Some o -> f < nf s'.
Proof.
  intros s l s' I St f0 o0 L. pose proof (r_lead _ I) as I1. pose proof (r_fl _ I) as I3. pose proof (r_rs _ I) as I7. clear I. rcases St E E2; eauto.
  - apply I7 in L. lia.
  - pose proof (I1 t) as LT. rewrite E in LT. specialize (LT _ _ eq_refl). ucase; eauto.
Qed.
Lemma s_wr : forall s l s', RInv s -> rstep s l s' -> forall t, writer (rp s' t) = true -> wr s' = Some t.
Proof.
  intros s l s' I St u L. pose proof (r_wr _ I) as I8. clear I. rcases St E E2.
  all: pose proof (I8 t) as WT; rewrite E in WT; cbn [writer] in WT.
  all: match type of L with writer (upd ?pp ?tt ?x ?uu) = _ => destruct (upd_cases pp tt uu x) as [(-> & X)|(Q & X)]; rewrite X in L end;
     cbn [writer] in L; bang; cbn [writer] in *; try discriminate; auto; try (specialize (WT eq_refl)); try (apply I8 in L; congruence).
Qed.
Lemma s_rd : forall s l s', RInv s -> rstep s l s' -> exists L, List.NoDup L /\ length L = rd s' /\ forall t, In t L <-> reader (rp s' t) = true.
Proof.
  intros s l s' I St. pose proof (r_rd _ I) as I9. clear I. rcases St E E2; try (apply rd_same; auto; rewrite E; auto; bang; auto; fail).
  - destruct I9 as (L & A & B & C). exists (t :: L). split; [|split; [cbn; lia|]].
    + constructor; auto. rewrite C, E. discriminate.
    + intros u. cbn. rewrite C. ucase; [tauto|]. split; [intros [X|X]; [congruence|auto]|auto].
  - destruct I9 as (L & A & B & C). assert (T : In t L) by (apply C; now rewrite E). apply in_split in T. destruct T as (L1 & L2 & ->).
    exists (L1 ++ L2). split; [eapply NoDup_remove_1; eauto|]. rewrite app_length in *. cbn in B. split; [lia|].
    assert (NT : ~ In t (L1 ++ L2)) by (eapply NoDup_remove_2; eauto).
    intros u. specialize (C u). rewrite in_app_iff in C, NT |- *. cbn in C. ucase.
    + split; [tauto|]. destruct o; discriminate.
    + rewrite <- C. split; intros [X|X]; auto. destruct X; [congruence|auto].
Qed.
Lemma s_ex : forall s l s', RInv s -> rstep s l s' -> wr s' <> None -> rd s' = 0.
Proof.
  intros s l s' I St L. pose proof (r_ex _ I) as I10. clear I. rcases St E E2; auto; try congruence. specialize (I10 L). lia.
Qed.
Lemma rinv_step : forall s l s', RInv s -> rstep s l s' -> RInv s'.
Proof.
  intros. split; eauto using s_lead, s_uniq, s_fl, s_lead0, s_forget, s_has, s_inj, s_wait, s_ret, s_rs, s_wr, s_rd, s_ex.
Qed.
Lemma rinv : forall tr s, exec rinit rstep tr s -> RInv s.
Proof. apply exec_ind_inv; [apply rinv_init|]. intros. eapply rinv_step; eauto. Qed.

Lemma writer_excl : forall s t u, RInv s -> writer (rp s t) = true -> writer (rp s u) = true -> t = u.
Proof. intros s t u I A B. apply (r_wr _ I) in A, B. congruence. Qed.

(** ** Contents *)
Lemma content_snoc : forall k tr l, content k (tr ++ [l]) = content1 k (content k tr) l.
Proof. intros. unfold content. now rewrite fold_left_app. Qed.
Lemma content_same : forall k tr0 tr1, List.Forall (fun l => ~ changes l) tr1 -> content k (tr0 ++ tr1) = content k tr0.
Proof.
  intros k tr0 tr1. induction tr1 as [|l tr1 IH] using rev_ind; intros H; [now rewrite app_nil_r|].
  apply Forall_app in H. destruct H as (H1 & H2). inversion_clear H2 as [|? ? H3 _]. rewrite app_assoc, content_snoc, IH by auto.
  destruct l; cbn in *; tauto.
Qed.

Lemma contents : forall tr s, exec rinit rstep tr s ->
  (rmap s = None <-> exists t, In (LNil t) tr) /\ forall k, (rmap s ≫= lookup k) = content k tr.
Proof.
  apply exec_ind_inv.
  - intros s (A & _). rewrite A. cbn. split; [split; [discriminate|intros (t & [])]|]. intros k. now rewrite lookup_empty.
  - intros tr s l s' _ (A & B) St. split.
    + assert (NO : (forall t, l <> LNil t) -> (exists t, In (LNil t) (tr ++ [l])) <-> exists t, In (LNil t) tr).
      { intros X. split; intros (t & T); exists t; [apply in_app_iff in T; destruct T as [T|[T|[]]]; [auto|exfalso; eapply X; eauto]|apply in_app_iff; auto]. }
      rcases St E E2; try (rewrite NO by discriminate; exact A).
      * rewrite NO by discriminate. rewrite <- A. split; discriminate.
      * split; auto. intros _. exists t. apply in_app_iff. right. now left.
      * rewrite NO by discriminate. rewrite <- A. destruct m; cbn; split; try discriminate; auto.
    + intros k'. rewrite content_snoc, <- B. rcases St E E2; cbn; auto.
      * destruct (Nat.eqb_spec k k') as [<-|X]; [now rewrite lookup_insert|now rewrite lookup_insert_ne].
      * destruct (Nat.eqb_spec k k') as [<-|X]; destruct m; cbn; auto; [now rewrite lookup_delete|now rewrite lookup_delete_ne].
Qed.

(** ** Close *)
Definition pairs (l : list (nat * nat * closed)) : list (nat * closer) := map (fun x => (fst (fst x), Some (snd (fst x)))) l.
Lemma closes_snoc : forall tr l, closes (tr ++ [l]) = closes tr ++ close1 l.
Proof. intros. unfold closes. rewrite map_app, concat_app. cbn. now rewrite app_nil_r. Qed.
Lemma errs_snoc : forall l x, close_errs (l ++ [x]) = close_errs l ++ match snd x with ClErr e => [e] | _ => [] end.
Proof. intros. unfold close_errs. rewrite map_app, concat_app. cbn. now rewrite app_nil_r. Qed.

Definition closing (tr : list rlabel) (s : rstate) (t : nat) (l : list (nat * closer)) (errs : list nat) : Prop :=
  exists tr0 tr1, tr = tr0 ++ LLocked t :: tr1 /\ List.Forall (fun l => ~ changes l) tr1 /\
    pairs (closes tr1) ++ l ≡ₚ map_to_list (default ∅ (rmap s)) /\ errs = close_errs (closes tr1).
Definition closed_ok (tr : list rlabel) (t : nat) (errs : list nat) : Prop :=
  exists tr0 tr1 tr2, tr = tr0 ++ LLocked t :: tr1 ++ LNil t :: tr2 /\
    List.NoDup (map close_key (closes tr1)) /\
    (forall k r, In (k, r) (map close_res (closes tr1)) <-> content k tr0 = Some (Some r)) /\
    (forall k, content k tr0 <> Some None) /\ errs = close_errs (closes tr1).

Lemma closed_ok_mono : forall tr t errs l, closed_ok tr t errs -> closed_ok (tr ++ [l]) t errs.
Proof. intros tr t errs l (a & b & c & -> & X). exists a, b, (c ++ [l]). split; auto. rewrite <- app_assoc. cbn. now rewrite <- app_assoc. Qed.

Lemma close_inv : forall tr s, exec rinit rstep tr s ->
  (forall t l errs, rp s t = CLoop l errs -> closing tr s t l errs) /\
  (forall t errs, rp s t = CUn errs \/ rp s t = CRet errs -> closed_ok tr t errs).
Proof.
  apply exec_ind_inv.
  - intros s (_ & _ & _ & _ & _ & P). split; intros t; rewrite (P t); intros; [discriminate|destruct H; discriminate].
  - intros tr s l s' EX (A & B) St. pose proof (rinv _ _ EX) as I. pose proof (contents _ _ EX) as (_ & CT). split.
    + (* the loop *)
      assert (KEEP : forall t l0 errs, rp s t = CLoop l0 errs -> rmap s' = rmap s -> ~ changes l -> close1 l = [] -> closing (tr ++ [l]) s' t l0 errs).
      { intros t l0 errs X E N Z. destruct (A _ _ _ X) as (tr0 & tr1 & -> & Q1 & Q2 & Q3). exists tr0, (tr1 ++ [l]).
        split; [now rewrite <- app_assoc|]. split; [apply Forall_app; split; auto|]. rewrite closes_snoc, Z, app_nil_r, E. auto. }
      intros u lx errs0 P.
      assert (EXC : forall t, rp s u = CLoop lx errs0 -> writer (rp s t) = true -> t = u).
      { intros t X Y. eapply writer_excl; eauto. now rewrite X. }
      rcases St E E2; match type of P with upd ?pp ?tt ?x ?uu = _ => destruct (upd_cases pp tt uu x) as [(-> & X)|(Q & X)]; rewrite X in P; clear X end;
        try discriminate; try (apply KEEP; auto; cbn; tauto); try (exfalso; apply Q; symmetry; apply EXC; auto; rewrite E; reflexivity).
      * destruct o; discriminate.
      * destruct c; discriminate.
      * injection P as <- <-. exists tr, []. repeat split; auto.
      * destruct c; cbn in P; try discriminate; injection P as <- <-; destruct (A _ _ _ E) as (tr0 & tr1 & -> & Q1 & Q2 & Q3).
        { exists tr0, (tr1 ++ [LClosed t k r ClNil]). split; [now rewrite <- app_assoc|]. split; [apply Forall_app; split; auto; constructor; auto|].
          rewrite closes_snoc. cbn [close1]. rewrite errs_snoc. cbn [snd]. unfold pairs in *. rewrite map_app, <- app_assoc. cbn. rewrite app_nil_r. auto. }
        { exists tr0, (tr1 ++ [LClosed t k r (ClErr e)]). split; [now rewrite <- app_assoc|]. split; [apply Forall_app; split; auto; constructor; auto|].
          rewrite closes_snoc. cbn [close1]. rewrite errs_snoc. cbn [snd]. unfold pairs in *. rewrite map_app, <- app_assoc. cbn. split; auto. now rewrite Q3. }
    + (* done *)
      assert (KEEP : forall t errs, rp s t = CUn errs \/ rp s t = CRet errs -> closed_ok (tr ++ [l]) t errs).
      { intros. apply closed_ok_mono. auto. }
      intros u errs0 P.
      rcases St E E2; match type of P with upd ?pp ?tt ?x ?uu = _ \/ _ => destruct (upd_cases pp tt uu x) as [(-> & X)|(Q & X)]; rewrite X in P; clear X end;
        try (destruct P; discriminate); try (apply KEEP; exact P).
      * destruct o, P; discriminate.
      * destruct c, P; discriminate.
      * destruct c, P; discriminate.
      * destruct P as [P|P]; [|discriminate]. injection P as <-. destruct (A _ _ _ E) as (tr0 & tr1 & -> & Q1 & Q2 & Q3).
        assert (SAME : forall k, content k tr0 = (m ≫= lookup k)).
        { intros k. rewrite CT, (content_same k tr0 (LLocked t :: tr1)); auto; constructor; auto. }
        rewrite app_nil_r in Q2. exists tr0, tr1, []. split; [now rewrite <- app_assoc|].
        assert (LK : forall k c, In (k, c) (pairs (closes tr1)) <-> (m ≫= lookup k) = Some c).
        { intros k c. rewrite <- elem_of_list_In, Q2, elem_of_map_to_list. destruct m; cbn; [tauto|]. rewrite lookup_empty. tauto. }
        split; [|split; [|split; [|exact Q3]]].
        { apply NoDup_ListNoDup. replace (map close_key (closes tr1)) with ((pairs (closes tr1)).*1); [rewrite Q2; apply NoDup_fst_map_to_list|].
          unfold pairs. change (map fst (map (fun x => (x.1.1, Some x.1.2)) (closes tr1)) = map close_key (closes tr1)). now rewrite map_map. }
        { intros k r. rewrite SAME, <- LK. unfold pairs. rewrite !in_map_iff. split; intros ([[k' r'] c] & X & Y); cbn in X; injection X as <- <-; eexists; split; eauto; reflexivity. }
        { intros k. rewrite SAME, <- LK. unfold pairs. rewrite in_map_iff. intros ([[k' r'] c] & X & Y). discriminate. }
      * destruct P as [P|P]; [discriminate|]. injection P as <-. apply KEEP. auto.
Qed.

(** ** A panic under the lock *)
Definition stuck (s : rstate) : Prop := exists t, wr s = Some t /\ writer (rp s t) = false.
Lemma stuck_step : forall s l s', RInv s -> stuck s -> rstep s l s' -> stuck s' /\ (forall t, l <> LLocked t) /\ forall t k o, l <> LLook t k o.
Proof.
  intros s l s' I (u & W & P) St. split; [|split].
  - pose proof (r_wr _ I) as WR. rcases St E E2; try discriminate; try injection W as <-; exists u; cbn [wr rp];
      pose proof (WR t) as WT; rewrite E in WT; cbn [writer] in WT; try (specialize (WT eq_refl); rewrite W in WT; injection WT as ->; rewrite E in P; discriminate);
      (split; auto; ucase; auto; cbn [writer] in *; bang; auto); destruct o; reflexivity.
  - intros t ->. inversion St; subst; discriminate.
  - intros t k o ->. pose proof (r_ex _ I) as X. pose proof (r_rd _ I) as (L & _ & LL & RL). inversion St; subst; cbn in *.
    rewrite X in LL by congruence. destruct L; [|discriminate]. apply (RL t). match goal with Y : _ t = GRead _ _ |- _ => now rewrite Y end.
Qed.
Lemma stuck_enter : forall s l s', RInv s -> rstep s l s' -> stuck_event l -> stuck s'.
Proof.
  intros s l s' I St SE. pose proof (r_wr _ I) as WR. rcases St E E2; cbn in SE; try easy;
    pose proof (WR t) as WT; rewrite E in WT; specialize (WT eq_refl); exists t; split; auto; cbn [rp]; rewrite upd_same; auto.
  destruct c; easy.
Qed.
Lemma stuck_run : forall s tr s', RInv s -> stuck s -> steps rstep s tr s' -> stuck s' /\ RInv s' /\ (forall t, ~ In (LLocked t) tr) /\ forall t k o, ~ In (LLook t k o) tr.
Proof.
  intros s tr s' I S R. induction R as [|tr s1 l s2 R IH St]; [split; [exact S|split; [exact I|split; intros; intros []]]|]. destruct IH as (S1 & I1 & A & B).
  destruct (stuck_step _ _ _ I1 S1 St) as (S2 & A2 & B2). split; auto. split; [eapply rinv_step; eauto|].
  split; intros; rewrite in_app_iff; intros [X|[X|[]]]; [eapply A; eauto|eapply A2; eauto|eapply B; eauto|eapply B2; eauto].
Qed.

(** ** Each key is closed at most once *)
Lemma nd_app : forall {X} (a b : list X), List.NoDup (a ++ b) -> List.NoDup a /\ List.NoDup b.
Proof. intros X a b N. apply NoDup_ListNoDup, NoDup_app in N. destruct N as (A & _ & B). split; now apply NoDup_ListNoDup. Qed.
Lemma loop_facts : forall tr s t l errs, exec rinit rstep tr s -> rp s t = CLoop l errs ->
  List.NoDup (map fst l) /\ forall k c, In (k, c) l -> (rmap s ≫= lookup k) = Some c.
Proof.
  intros tr s t l errs EX P. destruct (proj1 (close_inv _ _ EX) _ _ _ P) as (tr0 & tr1 & -> & _ & Q & _). split.
  - assert (ND : List.NoDup (map fst (pairs (closes tr1) ++ l))).
    { apply NoDup_ListNoDup. change (NoDup (pairs (closes tr1) ++ l).*1). rewrite Q. apply NoDup_fst_map_to_list. }
    rewrite map_app in ND. now apply nd_app in ND.
  - intros k c X. assert (Y : (k, c) ∈ pairs (closes tr1) ++ l) by (apply elem_of_app; right; now apply elem_of_list_In).
    rewrite Q in Y. apply elem_of_map_to_list in Y. destruct (rmap s); cbn in *; auto; rewrite lookup_empty in Y; discriminate.
Qed.
Lemma once_inv : forall tr s, exec rinit rstep tr s -> List.NoDup (map close_key (closes tr)) /\
  (closes tr = [] \/ (exists t l errs, rp s t = CLoop l errs /\ List.NoDup (map close_key (closes tr) ++ map fst l)) \/ rmap s = None \/ stuck s).
Proof.
  apply exec_ind_inv; [intros; split; [constructor|auto]|]. intros tr s l s' EX (ND & IH) St. pose proof (rinv _ _ EX) as I.
  rewrite closes_snoc, map_app.
  destruct IH as [IH|[(t0 & l1 & errs1 & P & N2)|[IH|IH]]].
  - rewrite IH. cbn [map app]. destruct l; cbn; try (split; [constructor|auto]; fail). split; [repeat constructor; auto|]. right.
    pose proof (r_wr _ I) as WR. inversion St; subst. cbn [rmap rp wr] in *. match goal with X : p t = CLoop _ _ |- _ => rename X into E end.
    destruct c; cbn [after_close].
    + left. exists t, l, errs. rewrite upd_same. split; auto. destruct (loop_facts _ _ _ _ _ EX E) as (Q & _). exact Q.
    + left. exists t, l, (errs ++ [e]). rewrite upd_same. split; auto. destruct (loop_facts _ _ _ _ _ EX E) as (Q & _). exact Q.
    + right. right. eapply stuck_enter; eauto. exact Logic.I.
  - assert (EXC : forall u, writer (rp s u) = true -> u = t0) by (intros u U; eapply writer_excl; eauto; now rewrite P).
    assert (OTHER : forall u, u <> t0 -> rp s u = rp s u) by auto.
    assert (KEEP : close1 l = [] -> rp s' t0 = rp s t0 -> List.NoDup (map close_key (closes tr) ++ map close_key (close1 l)) /\
      (closes tr ++ close1 l = [] \/ (exists t l2 errs, rp s' t = CLoop l2 errs /\ List.NoDup (map close_key (closes tr) ++ map close_key (close1 l) ++ map fst l2)) \/ rmap s' = None \/ stuck s')).
    { intros -> X. cbn. rewrite !app_nil_r. split; auto. right. left. exists t0, l1, errs1. rewrite X. auto. }
    rewrite <- app_assoc || idtac.
    assert (GEN : List.NoDup (map close_key (closes tr) ++ map close_key (close1 l)) /\
      (closes tr ++ close1 l = [] \/ (exists t l2 errs, rp s' t = CLoop l2 errs /\ List.NoDup (map close_key (closes tr) ++ map close_key (close1 l) ++ map fst l2)) \/ rmap s' = None \/ stuck s')).
    { pose proof (stuck_enter _ _ _ I St) as SE.
      rcases St E E2; try (apply KEEP; auto; apply upd_other; congruence).
      - assert (t = t0) by (apply EXC; now rewrite E). subst. rewrite P in E. injection E as -> ->. cbn [close1 map fst close_key] in *.
        assert (N3 : List.NoDup (map close_key (closes tr) ++ [k])).
        { replace (map close_key (closes tr) ++ k :: map fst l0) with ((map close_key (closes tr) ++ [k]) ++ map fst l0) in N2 by now rewrite <- app_assoc.
          now apply nd_app in N2. }
        split; auto. right. destruct c; cbn [after_close].
        + left. exists t0, l0, errs. rewrite upd_same. split; auto.
        + left. exists t0, l0, (errs ++ [e]). rewrite upd_same. split; auto.
        + right. right. apply SE. exact Logic.I.
      - cbn. rewrite !app_nil_r. split; auto. right. right. right. apply SE. exact Logic.I.
      - cbn. rewrite !app_nil_r. split; auto. }
    destruct GEN as (G1 & G2). split; auto. destruct G2 as [G2|[(t & l2 & errs & G2 & G3)|G2]]; auto. right. left. exists t, l2, errs. rewrite <- app_assoc. auto.
  - assert (C0 : close1 l = [] /\ rmap s' = None).
    { destruct l; cbn; try (split; [reflexivity|]; inversion St; subst; cbn in *; subst; auto; discriminate).
      inversion St; subst; cbn in *. subst. match goal with X : p t = CLoop _ _ |- _ => destruct (loop_facts _ _ _ _ _ EX X) as (_ & Q) end.
      specialize (Q k (Some r) (or_introl eq_refl)). discriminate. }
    destruct C0 as (-> & C0). cbn. rewrite !app_nil_r. auto.
  - destruct (stuck_step _ _ _ I IH St) as (S' & _). assert (C0 : close1 l = []).
    { destruct l; cbn; auto. exfalso. destruct IH as (u & W & P). pose proof (r_wr _ I t) as WR. inversion St; subst. cbn in *.
      match goal with X : p t = CLoop _ _ |- _ => rewrite X in WR; specialize (WR eq_refl); assert (u = t) by congruence; subst u; rewrite X in P end. discriminate. }
    rewrite C0. cbn. rewrite !app_nil_r. auto.
Qed.

(** ** Remove and create results *)
Lemma last_inv : forall tr s, exec rinit rstep tr s -> forall t,
  (forall k f r, rp s t = GLock k f r \/ rp s t = GWrite k f r -> last_create t tr = Some (k, CrVal r)) /\
  (forall k b, rp s t = MUn k b \/ rp s t = MRet k b -> last_removed t tr = Some (k, b)).
Proof.
  apply (exec_ind_inv rinit rstep (fun tr s => forall t,
    (forall k f r, rp s t = GLock k f r \/ rp s t = GWrite k f r -> last_create t tr = Some (k, CrVal r)) /\
    (forall k b, rp s t = MUn k b \/ rp s t = MRet k b -> last_removed t tr = Some (k, b)))).
  - intros s (_ & _ & _ & _ & _ & P) t. split; intros; rewrite (P t) in H; destruct H; discriminate.
  - intros tr s l s' EX IH St u. destruct (IH u) as (A & B). unfold last_create, last_removed in *. split.
    + intros k0 f0 r0 P. rewrite fold_left_app. cbn [fold_left].
      rcases St E E2; match type of P with upd ?pp ?tt ?x ?uu = _ \/ _ => destruct (upd_cases pp tt uu x) as [(-> & X)|(Q & X)]; rewrite X in P; clear X end;
        cbn; rewrite ?Nat.eqb_refl; try (destruct (Nat.eqb_spec t u); [congruence|]); eauto; try (destruct P; discriminate).
      * destruct o, P; discriminate.
      * destruct c, P as [P|P]; try discriminate. injection P as -> -> ->. auto.
      * destruct P as [P|P]; try discriminate. injection P as -> -> ->. eauto.
      * destruct c, P; discriminate.
    + intros k0 b0 P. rewrite fold_left_app. cbn [fold_left].
      rcases St E E2; match type of P with upd ?pp ?tt ?x ?uu = _ \/ _ => destruct (upd_cases pp tt uu x) as [(-> & X)|(Q & X)]; rewrite X in P; clear X end;
        cbn; rewrite ?Nat.eqb_refl; try (destruct (Nat.eqb_spec t u); [congruence|]); eauto; try (destruct P; discriminate).
      * destruct o, P; discriminate.
      * destruct c, P; discriminate.
      * destruct c, P; discriminate.
      * destruct P as [P|P]; try discriminate. injection P as -> ->. auto.
      * destruct P as [P|P]; try discriminate. injection P as -> ->. eauto.
Qed.

(** ** One flight, one outcome *)
Definition fate (f : nat) (o : outcome) (s : rstate) : Prop := (exists t k, rp s t = GDone k f o) \/ rs s f = Some o.
Lemma fate_step : forall s l s' f o, RInv s -> fate f o s -> rstep s l s' -> fate f o s' /\ forall u k x, l = LGetRet u k f x -> x = get_result o.
Proof.
  intros s l s' f o I H St. split.
  - destruct H as [(t0 & k9 & P)|P].
    + pose proof (r_lead _ I) as LE. pose proof (r_inj _ I) as IJ. pose proof (r_uniq _ I) as UQ. assert (F0 := LE t0 k9 f). rewrite P in F0. specialize (F0 eq_refl).
      rcases2 St E E2; try (left; exists t0, k9; cbn [rp]; rewrite upd_other; [auto|congruence]).
      destruct (Nat.eq_dec t t0) as [<-|N0].
      * rewrite E in P. injection P as -> -> ->. right. cbn. apply upd_same.
      * left. exists t0, k9. cbn [rp]. rewrite upd_other; auto.
    + right. pose proof (r_lead0 _ I) as LE. rcases2 St E E2; auto.
      rewrite upd_other; auto. intros ->. assert (F0 := LE t k0 f). rewrite E in F0. specialize (F0 eq_refl). congruence.
  - intros u k x ->. pose proof (r_ret _ I) as RR. pose proof (r_lead0 _ I) as LE.
    inversion St; subst; cbn in *. f_equal. match goal with X : p u = GRet _ _ ?o1 |- _ => rename o1 into o0; rename X into E end.
    apply RR in E. destruct H as [(t0 & k9 & P)|P]; cbn in *; [|congruence].
    exfalso. assert (F0 := LE t0 k9 f). rewrite P in F0. specialize (F0 eq_refl). congruence.
Qed.
Lemma fate_run : forall s tr s' f o, RInv s -> fate f o s -> steps rstep s tr s' -> RInv s' /\ fate f o s' /\ forall u k x, In (LGetRet u k f x) tr -> x = get_result o.
Proof.
  intros s tr s' f o I H R. induction R as [|tr s1 l s2 R IH St]; [split; [exact I|split; [exact H|intros u k x []]]|].
  destruct IH as (I1 & H1 & A). destruct (fate_step _ _ _ _ _ I1 H1 St) as (H2 & A2). split; [eapply rinv_step; eauto|]. split; auto.
  intros u k x X. apply in_app_iff in X. destruct X as [X|[X|[]]]; eauto.
Qed.

(** ** After a successful create *)
Definition JA (k : nat) (r : closer) (s : rstate) : Prop := exists t f, rp s t = GLock k f r \/ rp s t = GWrite k f r.
Definition fine (k : nat) (r : closer) (p : rpc) : Prop :=
  match p with
  | GRLock k' _ | GRead k' _ => True
  | GRUn k' _ o => k' = k -> o = Some r
  | GCreate k' _ | GIn k' _ | GLock k' _ _ | GWrite k' _ _ => k' <> k
  | GUn k' _ r' => k' = k -> r' = r
  | GDone k' _ o | GForget k' _ o => k' = k -> o = OVal r
  | _ => True
  end.
Definition JB (k : nat) (r : closer) (s : rstate) : Prop := (rmap s ≫= lookup k) = Some r /\ forall t, fine k r (rp s t).
Definition good (k : nat) (r : closer) (s : rstate) (u : nat) : Prop :=
  (forall f, rp s u = GWait k f -> fl s k = Some f /\ rs s f = None \/ rs s f = Some (OVal r)) /\ (forall f o, rp s u = GRet k f o -> o = OVal r).
Definition JJ (k : nat) (r : closer) (tr : list rlabel) (s : rstate) : Prop :=
  rmap s <> None /\ (JA k r s \/ JB k r s) /\ forall u k', In (LGet u k') tr -> good k r s u.

Lemma JAB_step : forall k r s l s', RInv s -> rmap s <> None -> JA k r s \/ JB k r s -> rstep s l s' ->
  (forall t, l <> LNil t) -> (forall t, l <> LRemoved t k true) -> rmap s' <> None /\ (JA k r s' \/ JB k r s') /\ forall t, l <> LCreateStart t k.
Proof.
  intros k r s l s' I NN J St NL NR. split.
  { rcases2 St E E2; try exact NN; [discriminate|exfalso; eapply NL; reflexivity|destruct m; cbn; [discriminate|congruence]]. }
  destruct J as [(t0 & f0 & J)|(J1 & J2)].
  - assert (L0 : lead (rp s t0) = Some (k, f0)) by (destruct J as [->| ->]; reflexivity).
    assert (UQ : forall u f, lead (rp s u) = Some (k, f) -> u = t0) by (intros u f X; eapply (r_uniq _ I); eauto).
    split.
    + assert (KEEP : rp s' t0 = rp s t0 -> JA k r s' \/ JB k r s') by (intros X; left; exists t0, f0; now rewrite X).
      rcases2 St E E2; try (apply KEEP; apply upd_other; intros ->; rewrite E in J; destruct J; discriminate).
      * destruct (Nat.eq_dec t t0) as [<-|N0]; [|apply KEEP; apply upd_other; auto]. left. exists t, f0. cbn. rewrite upd_same.
        rewrite E in J. destruct J as [J|J]; [injection J as -> -> ->; auto|discriminate].
      * destruct (Nat.eq_dec t t0) as [<-|N0]; [|apply KEEP; apply upd_other; auto]. right. rewrite E in J. destruct J as [J|J]; [discriminate|]. injection J as -> -> ->.
        split; [cbn; now rewrite lookup_insert|]. intros u. cbn [rp]. destruct (upd_cases p t u (GUn k f0 r)) as [(-> & ->)|(Q & ->)]; [cbn; auto|].
        destruct (p u) eqn:PU; cbn; auto; intro; subst; exfalso; apply Q; eapply UQ; rewrite PU; reflexivity.
      * congruence.
    + intros u ->. inversion St; subst. cbn [rp] in *. match goal with X : p u = GCreate _ _ |- _ => rename X into E end.
      assert (u = t0) by (eapply UQ; rewrite E; reflexivity). subst. rewrite E in J. destruct J; discriminate.
  - split.
    + right. assert (PF : forall u, fine k r (rp s' u)).
      { intros u. rcases2 St E E2; match goal with |- fine _ _ (upd ?pp ?tt ?x ?uu) => destruct (upd_cases pp tt uu x) as [(-> & ->)|(Q & ->)]; [|apply J2] end; cbn; auto;
          pose proof (J2 t) as JT; rewrite E in JT; cbn in JT; auto.
        all: try (destruct o1 as [r1|]; cbn); try (destruct c; cbn); auto; try (intro; subst; specialize (JT eq_refl); (contradiction || congruence)).
        intros ->. exact J1. }
      split; auto. rcases2 St E E2; auto.
      * cbn. rewrite lookup_insert_ne; auto. pose proof (J2 t) as JT. rewrite E in JT. exact JT.
      * exfalso. eapply NL; reflexivity.
      * destruct m as [m|]; [|congruence]. cbn in *. destruct (Nat.eq_dec k0 k) as [->|N0]; [|now rewrite lookup_delete_ne].
        exfalso. apply (NR t). rewrite J1. reflexivity.
    + intros u ->. inversion St; subst. cbn [rp] in *. match goal with X : p u = GCreate _ _ |- _ => rename X into E end. specialize (J2 u). rewrite E in J2. now apply J2.
Qed.

Lemma JJ_step : forall k r tr s l s', RInv s -> JJ k r tr s -> rstep s l s' ->
  (forall t, l <> LNil t) -> (forall t, l <> LRemoved t k true) -> JJ k r (tr ++ [l]) s' /\ (forall t, l <> LCreateStart t k) /\
  forall u k' f x, In (LGet u k') tr -> l = LGetRet u k f x -> x = get_result (OVal r).
Proof.
  intros k r tr s l s' I (NN & J & G) St NL NR. destruct (JAB_step k r s l s' I NN J St NL NR) as (A & B & C).
  assert (DONE : forall t f o, rp s t = GDone k f o \/ rp s t = GForget k f o -> o = OVal r).
  { intros t f o E. destruct J as [(t0 & f0 & J)|(_ & J2)]; [|specialize (J2 t); destruct E as [E|E]; rewrite E in J2; auto].
    assert (t = t0) by (eapply (r_uniq _ I t t0 k); [destruct E as [E|E]; rewrite E; reflexivity|destruct J as [->| ->]; reflexivity]). subst. destruct E as [E|E]; rewrite E in J; destruct J; discriminate. }
  assert (PUB : forall f o, fl s k = Some f -> rs s f = Some o -> o = OVal r).
  { intros f o X Y. destruct (r_has _ I _ _ X) as (t & T). assert (L0 := r_lead0 _ I t k f). destruct (rp s t) eqn:E; cbn in T, L0; try discriminate;
      try (rewrite (L0 T) in Y; discriminate). injection T as -> ->. rewrite (r_forget _ I _ _ _ _ E) in Y. injection Y as <-. eapply DONE; eauto. }
  split; [split; [auto|split; [auto|]]|split; [auto|]].
  - intros u k' IN.
    assert (G0 : good k r s u \/ exists k', l = LGet u k').
    { apply in_app_iff in IN. destruct IN as [IN|[IN|[]]]; [left; eauto|right; eauto]. }
    clear IN. destruct G0 as [(G1 & G2)|(k1 & ->)].
    + pose proof (r_lead _ I) as LE. pose proof (r_lead0 _ I) as FL. pose proof (r_forget _ I) as FO. pose proof (r_inj _ I) as IJ.
      split.
      * intros f0 P. assert (KEEP : rp s u = GWait k f0 -> fl s k = fl s' k -> rs s = rs s' -> fl s' k = Some f0 /\ rs s' f0 = None \/ rs s' f0 = Some (OVal r)).
        { intros X <- <-. auto. }
        rcases2 St E E2; match type of P with upd ?pp ?tt ?x ?uu = _ => destruct (upd_cases pp tt uu x) as [(-> & X)|(Q & X)]; rewrite X in P; clear X end;
          try discriminate; try (apply KEEP; auto; fail).
        -- destruct (G1 _ P) as [[X Y]|X]; auto. left. rewrite upd_other; auto. congruence.
        -- injection P as -> ->. destruct (Rr f0) eqn:X; auto. right. f_equal. eauto.
        -- destruct o1; discriminate.
        -- destruct c; discriminate.
        -- (* published *)
           assert (F0 := LE t k0 f1). rewrite E in F0. specialize (F0 eq_refl). assert (F2 := FL t k0 f1). rewrite E in F2. specialize (F2 eq_refl).
           destruct (G1 _ P) as [[X Y]|X].
           ++ destruct (Nat.eq_dec f1 f0) as [->|N0].
              ** assert (k0 = k) by eauto. subst. right. rewrite upd_same. f_equal. eapply DONE; eauto.
              ** left. rewrite upd_other; auto.
           ++ right. rewrite upd_other; auto. congruence.
        -- (* forgotten *)
           assert (F0 := LE t k0 f1). rewrite E in F0. specialize (F0 eq_refl). assert (F2 := FO _ _ _ _ E).
           destruct (G1 _ P) as [[X Y]|X]; auto. left. rewrite upd_other; auto. congruence.
        -- destruct c; discriminate.
      * intros f0 o0 P.
        rcases2 St E E2; match type of P with upd ?pp ?tt ?x ?uu = _ => destruct (upd_cases pp tt uu x) as [(-> & X)|(Q & X)]; rewrite X in P; clear X end;
          try discriminate; try (eapply G2; eauto; fail).
        -- destruct o1; discriminate.
        -- destruct c; discriminate.
        -- injection P as -> -> ->. eapply DONE; eauto.
        -- injection P as -> -> ->. destruct (G1 _ E) as [[X Y]|X]; congruence.
        -- destruct c; discriminate.
    + inversion St; subst. split; cbn [rp]; rewrite upd_same; intros; discriminate.
  - intros u k' f x IN ->. destruct (G _ _ IN) as (_ & G2). inversion St; subst. cbn [rp] in *. f_equal. eauto.
Qed.

Lemma JJ_start : forall k r s t f s', RInv s -> rmap s <> None -> rstep s (LCreateEnd t k f (CrVal r)) s' -> JJ k r [] s'.
Proof.
  intros k r s t f s' I NN St. inversion St; subst. cbn [rmap rp] in *. split; auto. split; [|intros u k' []]. left. exists t, f. cbn [rp]. rewrite upd_same. auto.
Qed.

Lemma JJ_run : forall k r s tr s', RInv s -> JJ k r [] s -> steps rstep s tr s' ->
  (forall t, ~ In (LNil t) tr) -> (forall t, ~ In (LRemoved t k true) tr) ->
  JJ k r tr s' /\ RInv s' /\ (forall t, ~ In (LCreateStart t k) tr) /\
  forall a b u k' f x, tr = a ++ LGetRet u k f x :: b -> In (LGet u k') a -> x = get_result (OVal r).
Proof.
  intros k r s tr s' I J R. induction R as [|tr s1 l s2 R IH St]; intros NL NR.
  - split; auto. split; auto. split; [intros t []|]. intros a b u k' f x X. destruct a; discriminate.
  - destruct IH as (J1 & I1 & A & B); [intros t X; apply (NL t), in_app_iff; auto|intros t X; apply (NR t), in_app_iff; auto|].
    destruct (JJ_step k r tr s1 l s2 I1 J1 St) as (J2 & A2 & B2).
    { intros t ->. apply (NL t), in_app_iff. right. now left. }
    { intros t ->. apply (NR t), in_app_iff. right. now left. }
    split; auto. split; [eapply rinv_step; eauto|]. split.
    + intros t X. apply in_app_iff in X. destruct X as [X|[X|[]]]; [eapply A; eauto|eapply A2; eauto].
    + intros a b u k' f x X IN. destruct b as [|y b] using rev_ind.
      * apply app_inj_tail in X. destruct X as [-> X]. eauto.
      * rewrite app_comm_cons, app_assoc in X. apply app_inj_tail in X. destruct X as [X _]. eauto.
Qed.
