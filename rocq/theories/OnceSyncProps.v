(** * C105: what was done before the Write that succeeds is visible to whoever gets its value *)
From Coq Require Import ZArith List Bool Lia Arith.
From Verif Require Import GoBase Trans XOnceModel XOnceSpec XOnceProps SyncSpec SyncProofs OnceSyncModel.
Import ListNotations.
Open Scope nat_scope.

Section Chan.
Context {V : Type}.
Notation ev := (ev place unit (olabel V)).
Notation runs := (traced (@oinit V) (@chan_step V) (@chan_acts V)).

(** Event i is the call of a Write by t with v whose CompareAndSwap succeeded. *)
Definition won (tr : list (olabel V * nat)) (T : list ev) (i t : nat) (v : V) : Prop :=
  nth_error T i = Some (t, ALab (OCall t v)) /\ In (OWin t v) (map fst tr).

Lemma won_snoc : forall tr T i t v l x, won tr T i t v -> won (tr ++ [l]) (T ++ x) i t v.
Proof. intros tr T i t v l x [H1 H2]. split; [now apply nth_app_l|]. rewrite map_app. apply in_or_app. auto. Qed.

Record Q (tr : list (olabel V * nat)) (T : list ev) (s : ostate V) : Prop := {
  q_cas : forall t v, opcs s t = OCas v -> exists i, nth_error T i = Some (t, ALab (OCall t v));
  q_wr : forall t v, In (OWin t v) (map fst tr) -> wrote s = true;
  q_x : wrote s = true -> exists i t v, won tr T i t v /\ seenX T PWrote i;
  q_send : forall t v, opcs s t = OSend v -> exists i, won tr T i t v;
  q_closing : forall t, opcs s t = OClose -> exists i v, won tr T i t v;
  q_buf : forall v, In v (buf s) -> exists i t, won tr T i t v /\ past T (ASend tt) i;
  q_closed : closed s = true -> exists i t v, won tr T i t v /\ past T (AClose tt) i;
  q_false : forall u, opcs s u = ORet false -> exists i t v, won tr T i t v /\ seen T i u
}.

Lemma runs_exec : forall tr T s, runs tr T s -> exec (@oinit V) (@ostep V) (map fst tr) s.
Proof. intros tr T s H. induction H; [now apply exec_nil|]. rewrite map_app. eapply exec_snoc; eauto. Qed.

Lemma Q_all : forall tr T s, runs tr T s -> Q tr T s.
Proof.
  apply (traced_ind_inv (@oinit V) (@chan_step V) (@chan_acts V) Q).
  - intros s (A & B & C & D). constructor; try rewrite A; try rewrite B; try rewrite C; try discriminate; try (intros; rewrite D in *; discriminate); cbn; contradiction.
  - intros tr T s [l r] s' H [Qc Qw Qx Qs Qo Qb Qd Qf] St.
    assert (Wn : forall i t v, won tr T i t v -> won (tr ++ [(l, r)]) (T ++ chan_acts s (l, r)) i t v) by (intros; now apply won_snoc).
    assert (Xx : forall i, seenX T PWrote i -> (forall e, In e (chan_acts s (l, r)) -> ~ writes (snd e) PWrote) -> seenX (T ++ chan_acts s (l, r)) PWrote i).
    { intros i. generalize (chan_acts s (l, r)) as es. induction es as [|[u a] es IH] using rev_ind; intros Hs Hn; [now rewrite app_nil_r|].
      rewrite app_assoc. apply seenX_snoc; [apply IH; auto; intros; apply Hn, in_or_app; auto|]. apply (Hn (u, a)), in_or_app. right. now left. }
    assert (NW : (forall t v, l <> OWin t v) -> forall e, In e (chan_acts s (l, r)) -> ~ writes (snd e) PWrote).
    { intros Hl e He W. assert (X : snd e <> AtCas PWrote /\ snd e <> AtWr PWrote /\ snd e <> AWr PWrote).
      { unfold chan_acts in He; cbn [fst snd] in He; destruct l as [| t v| | | | |[?|]]; cbn in He;
          try (now destruct (Hl t v)); repeat (destruct He as [<-|He]); try contradiction; cbn; try (destruct (opcs s t)); repeat split; discriminate. }
      destruct W as [W|[W|W]]; tauto. }
    unfold chan_step in St. cbn [fst] in St.
    assert (KW : wrote s' = wrote s -> (forall t v, l <> OWin t v) ->
      (forall t v, In (OWin t v) (map fst (tr ++ [(l, r)])) -> wrote s' = true) /\
      (wrote s' = true -> exists i t v, won (tr ++ [(l, r)]) (T ++ chan_acts s (l, r)) i t v /\ seenX (T ++ chan_acts s (l, r)) PWrote i)).
    { intros Ew Hl. split.
      - intros t v. rewrite map_app. intros Hi. apply in_app_or in Hi. rewrite Ew. destruct Hi as [Hi|[Hi|[]]]; [eauto|]. cbn in Hi. now apply Hl in Hi.
      - rewrite Ew. intros Hw. destruct (Qx Hw) as (i & t & v & W & X). exists i, t, v. split; auto. }
    assert (Oc : forall t v, opcs s t = OCas v -> exists i, nth_error (T ++ chan_acts s (l, r)) i = Some (t, ALab (OCall t v))).
    { intros t v Hp. destruct (Qc _ _ Hp) as [i Hi]. exists i. now apply nth_app_l. }
    assert (Os : forall t v, opcs s t = OSend v -> exists i, won (tr ++ [(l, r)]) (T ++ chan_acts s (l, r)) i t v).
    { intros t v Hp. destruct (Qs _ _ Hp) as [i Hi]. exists i. auto. }
    assert (Oo : forall t, opcs s t = OClose -> exists i v, won (tr ++ [(l, r)]) (T ++ chan_acts s (l, r)) i t v).
    { intros t Hp. destruct (Qo _ Hp) as (i & v & Hi). exists i, v. auto. }
    assert (Ob : forall v, In v (buf s) -> exists i t, won (tr ++ [(l, r)]) (T ++ chan_acts s (l, r)) i t v /\ past (T ++ chan_acts s (l, r)) (ASend tt) i).
    { intros v Hb. destruct (Qb _ Hb) as (i & u & W & P). exists i, u. split; [auto|now apply past_app]. }
    assert (Od : closed s = true -> exists i t v, won (tr ++ [(l, r)]) (T ++ chan_acts s (l, r)) i t v /\ past (T ++ chan_acts s (l, r)) (AClose tt) i).
    { intros Hb. destruct (Qd Hb) as (i & u & v & W & P). exists i, u, v. split; [auto|now apply past_app]. }
    assert (Of : forall u, opcs s u = ORet false -> exists i t v, won (tr ++ [(l, r)]) (T ++ chan_acts s (l, r)) i t v /\ seen (T ++ chan_acts s (l, r)) i u).
    { intros u Hp. destruct (Qf _ Hp) as (i & t & v & W & P). exists i, t, v. split; [auto|now apply seen_app]. }
    Ltac ot0 u Hp := unfold upd in Hp;
      match type of Hp with (if Nat.eqb ?t u then _ else _) = _ => destruct (Nat.eqb_spec t u) as [?|?]; [subst u; try discriminate Hp|eauto] end.
    Ltac ot := (let u := fresh "u" in let Hp := fresh "Hp" in intros u Hp; ot0 u Hp) || (let u := fresh "u" in let v := fresh "v" in let Hp := fresh "Hp" in intros u v Hp; ot0 u Hp).
    inversion St; subst; cbn [wrote buf closed opcs] in *;
      try (destruct (KW eq_refl ltac:(discriminate)) as [KW1 KW2]);
      constructor; cbn [wrote buf closed opcs]; auto; try solve [ot].
    + ot. injection Hp as <-. exists (length T). apply nth_last.
    + intros _. destruct (Qc _ _ H0) as (i & Hi). exists i, t, v. split; [split; [now apply nth_app_l|rewrite map_app; apply in_or_app; right; now left]|].
      apply seen_write; cbn; auto; [|right; now right]. eapply seen_self; eauto.
    + ot. injection Hp as <-. destruct (Qc _ _ H0) as (i & Hi). exists i. split; [now apply nth_app_l|rewrite map_app; apply in_or_app; right; now left].
    + ot. destruct (Qx eq_refl) as (i & u & v0 & W & X). exists i, u, v0. split; [now apply Wn|]. apply hb_seen.
      eapply seenX_next; eauto; [exact I|right; now left].
    + ot. destruct (Qs _ _ H0) as (i & Hi). exists i, v. auto.
    + intros v0 Hv. apply in_app_or in Hv. destruct Hv as [Hv|[<-|[]]]; [auto|]. destruct (Qs _ _ H0) as (i & Hi). exists i, t. split; [auto|].
      unfold chan_acts. cbn [fst opcs]. rewrite H0. apply seen_past. eapply seen_self, Hi.
    + intros _. destruct (Qo _ H0) as (i & v & Hi). exists i, t, v. split; [auto|].
      unfold chan_acts. cbn [fst opcs]. rewrite H0. apply seen_past. eapply seen_self, Hi.
    + intros v0 Hv. apply Ob. now right.
Qed.

Lemma chan_last : forall (s : ostate V) l k t b, nth_error (chan_acts s l) k = Some (t, ALab b) ->
  b = fst l /\ exists pre, chan_acts s l = pre ++ [(t, ALab b)] /\ k = length pre.
Proof.
  intros s [l r] k t b. unfold chan_acts. cbn [fst snd]. destruct l as [| | |u| | |[v|]]; intros Hn;
    try (destruct k as [|[|k]]; try discriminate; injection Hn as <- <-; split; auto; (now exists [])).
  - destruct k as [|[|k]]; cbn in Hn; try discriminate. destruct (opcs s u); discriminate.
  - destruct k as [|[|[|k]]]; cbn in Hn; try discriminate. injection Hn as <- <-. split; auto. now exists [(r, ARecv tt)].
  - destruct k as [|[|[|k]]]; cbn in Hn; try discriminate. injection Hn as <- <-. split; auto. now exists [(r, AEnd tt)].
Qed.

Lemma won_app : forall tr T i t v tr2 x, won tr T i t v -> won (tr ++ tr2) (T ++ x) i t v.
Proof. intros tr T i t v tr2 x [H1 H2]. split; [now apply nth_app_l|]. rewrite map_app. apply in_or_app. auto. Qed.

(** Whoever receives v from the channel: some Write with v was called, and succeeded, and that call happens before. *)
Theorem C105_chan_value : forall tr T s j r v, runs tr T s -> nth_error T j = Some (r, ALab (ORecv (Some v))) ->
  exists i t, won tr T i t v /\ hb T i j.
Proof.
  intros tr T s j r v H Hj.
  destruct (label_at _ _ _ fst chan_last _ _ _ _ _ _ H Hj) as (tr1 & T1 & s1 & s2 & [l r'] & pre & T2 & H1 & St & E & Ea & (tr2 & ->) & -> & ->).
  cbn in E. subst l. cbn in Ea. destruct pre as [|e [|? [|? ?]]]; try discriminate Ea. injection Ea as <- ->.
  inversion St; subst; cbn [fst] in *; try discriminate.
  destruct (q_buf _ _ _ (Q_all _ _ _ H1) v) as (i & t & W & P).
  { match goal with X : _ = Some v |- _ => injection X as -> | X : Some v = _ |- _ => injection X as -> | _ => idtac end. now left. }
  exists i, t. split; [rewrite <- (app_assoc T1); now apply won_app|]. apply seen_lab. eapply past_seen; [exact P|constructor].
Qed.
(** Whoever finds the channel closed and empty: the call of the Write that succeeded happens before. *)
Theorem C105_chan_end : forall tr T s j r, runs tr T s -> nth_error T j = Some (r, ALab (ORecv None)) ->
  exists i t v, won tr T i t v /\ hb T i j.
Proof.
  intros tr T s j r H Hj.
  destruct (label_at _ _ _ fst chan_last _ _ _ _ _ _ H Hj) as (tr1 & T1 & s1 & s2 & [l r'] & pre & T2 & H1 & St & E & Ea & (tr2 & ->) & -> & ->).
  cbn in E. subst l. cbn in Ea. destruct pre as [|e [|? [|? ?]]]; try discriminate Ea. injection Ea as <- ->.
  inversion St; subst; cbn [fst] in *; try discriminate.
  destruct (q_closed _ _ _ (Q_all _ _ _ H1) eq_refl) as (i & t & v & W & P).
  exists i, t, v. split; [rewrite <- (app_assoc T1); now apply won_app|]. apply seen_lab. eapply past_seen; [exact P|constructor].
Qed.
(** A Write that returns false comes after the call of the Write that succeeded. *)
Theorem C105_chan_false : forall tr T s j u, runs tr T s -> nth_error T j = Some (u, ALab (OReturn u false)) ->
  exists i t v, won tr T i t v /\ hb T i j.
Proof.
  intros tr T s j u H Hj.
  destruct (label_at _ _ _ fst chan_last _ _ _ _ _ _ H Hj) as (tr1 & T1 & s1 & s2 & [l r'] & pre & T2 & H1 & St & E & Ea & (tr2 & ->) & -> & ->).
  cbn in E. subst l. cbn in Ea. destruct pre as [|e [|? ?]]; try discriminate Ea.
  inversion St; subst; cbn [fst] in *; try discriminate.
  destruct (q_false _ _ _ (Q_all _ _ _ H1) u) as (i & t & v & W & P); [assumption|].
  exists i, t, v. rewrite app_nil_r. split; [now apply won_app|]. now apply seen_lab.
Qed.
(** One Write at most succeeds: the value is the same for all. *)
Theorem C105_chan_one : forall tr T s i j t u v w, runs tr T s -> won tr T i t v -> won tr T j u w -> t = u /\ v = w.
Proof.
  intros tr T s i j t u v w H [_ W1] [_ W2]. apply runs_exec in H.
  destruct (oinv_exec _ _ H v) as (st & x & v' & A1 & A2 & A3 & A4 & _).
  assert (In_wins : forall l a (b : V), In (OWin a b) l -> In (a, b) (wins l)).
  { induction l as [|x0 l IHl]; [intros a b []|]. intros a b Hin. destruct x0; cbn in *; (destruct Hin as [Hin|Hin]; [try discriminate; injection Hin as <- <-; now left|]); auto; right; auto. }
  apply In_wins in W1, W2. destruct st; rewrite A4 in W1, W2; try contradiction;
    destruct W1 as [W1|[]], W2 as [W2|[]]; injection W1 as <- <-; injection W2 as <- <-; auto.
Qed.
(** One value is sent and the channel is closed once, as the reading of [ASend], [ARecv], [AClose], [AEnd] in SyncSpec.v supposes. *)
Theorem C105_chan_once : forall tr T s i j t u a, runs tr T s -> a = ASend tt \/ a = AClose tt ->
  nth_error T i = Some (t, a) -> nth_error T j = Some (u, a) -> i = j.
Proof.
  pose (spent := fun (a : act place unit (olabel V)) (s : ostate V) => (a = ASend tt -> wrote s = true /\ forall t v, opcs s t <> OSend v) /\ (a = AClose tt -> closed s = true)).
  assert (A : forall tr T s, runs tr T s -> (forall i t a, nth_error T i = Some (t, a) -> spent a s) /\
    forall i j t u a, a = ASend tt \/ a = AClose tt -> nth_error T i = Some (t, a) -> nth_error T j = Some (u, a) -> i = j).
  2: { intros tr T s i j t u a H Ha. exact (proj2 (A _ _ _ H) i j t u a Ha). }
  apply (traced_ind_inv (@oinit V) (@chan_step V) (@chan_acts V) (fun _ T s => (forall i t a, nth_error T i = Some (t, a) -> spent a s) /\
    forall i j t u a, a = ASend tt \/ a = AClose tt -> nth_error T i = Some (t, a) -> nth_error T j = Some (u, a) -> i = j)).
  - intros s _. split; [intros [|i]; discriminate|intros [|i]; discriminate].
  - intros tr T s [l r] s' H [H1 H2] St. unfold chan_step in St. cbn [fst] in St.
    assert (M : forall a, spent a s -> spent a s').
    { intros a [S1 S2]. split; intros ->.
      - destruct (S1 eq_refl) as [W NS]. inversion St; subst; cbn [wrote opcs] in *; try discriminate; split; auto; intros u0 v0; unfold upd; destruct (Nat.eqb _ _); auto; discriminate.
      - specialize (S2 eq_refl). inversion St; subst; cbn [closed] in *; auto. }
    assert (N : forall k t a, a = ASend tt \/ a = AClose tt -> nth_error (chan_acts s (l, r)) k = Some (t, a) -> k = 0 /\ ~ spent a s /\ spent a s').
    { intros k t a Ha Hn. unfold chan_acts in Hn. cbn [fst snd] in Hn.
      destruct l as [| | |u| | |[v|]]; try (destruct k as [|[|[|k]]]; destruct Ha; subst a; discriminate).
      destruct k as [|[|k]]; try discriminate. split; auto. injection Hn as <- Hn.
      inversion St; subst; cbn [opcs] in *.
      - rewrite H3. split; [intros [Hs _]; destruct (Hs eq_refl) as [_ NS]; now apply (NS u v)|]. split; [|discriminate]. intros _. cbn [wrote opcs].
        destruct (oinv_exec _ _ (runs_exec _ _ _ H) v) as (st & x & v' & A1 & A2 & A3 & A4 & A5 & A6 & _). cbn [wrote closed opcs] in *.
        assert (x = u) by (symmetry; apply A5; now rewrite H3). subst x. destruct st; cbn in A6; rewrite ?H3 in A6; try discriminate.
        split; auto. intros t0 v0. unfold upd. destruct (Nat.eqb_spec u t0) as [Ee|Hd]; [discriminate|]. intros E0. apply Hd. symmetry. apply A5. now rewrite E0.
      - match goal with X : p u = OClose |- _ => rewrite X end. split; [intros [_ Hs]; now specialize (Hs eq_refl)|]. split; [discriminate|auto]. }
    split.
    + intros i t a Hn. destruct (Nat.lt_ge_cases i (length T)) as [Hl|Hl].
      * rewrite nth_error_app1 in Hn by auto. eauto.
      * rewrite nth_error_app2 in Hn by auto. destruct a; try (now split); eapply N; eauto; destruct c; auto.
    + intros i j t u a Ha Hi Hj. destruct (Nat.lt_ge_cases i (length T)) as [Hl|Hl], (Nat.lt_ge_cases j (length T)) as [Hl'|Hl'];
        rewrite ?(nth_error_app1 T _ Hl), ?(nth_error_app2 T _ Hl) in Hi; rewrite ?(nth_error_app1 T _ Hl'), ?(nth_error_app2 T _ Hl') in Hj.
      * eauto.
      * apply N in Hj; auto. destruct Hj as (_ & Hj & _). now apply H1 in Hi.
      * apply N in Hi; auto. destruct Hi as (_ & Hi & _). now apply H1 in Hj.
      * apply N in Hi, Hj; auto. lia.
Qed.
End Chan.

(** ** Value *)
Notation vruns := (traced vinit vstep value_acts).
(** Event i is the call of a Write by t with v that stored v. *)
Definition stored (tr : list vlabel) (T : list (ev place unit vlabel)) (i t : nat) (v : gval) : Prop :=
  nth_error T i = Some (t, ALab (VCall t (Some v))) /\ In (VCommit t v) tr.
Lemma stored_app : forall tr T i t v tr2 x, stored tr T i t v -> stored (tr ++ tr2) (T ++ x) i t v.
Proof. intros tr T i t v tr2 x [H1 H2]. split; [now apply nth_app_l|]. apply in_or_app. auto. Qed.

Definition arg (p : vpc) : option gval :=
  match p with VEnter (Some v) | VLoop v | VCas v | VStoreData v | VStoreType v => Some v | _ => None end.
Definition got (p : vpc) : bool := match p with VRet false | LData _ | LRet (Some _) => true | _ => false end.
Record R (tr : list vlabel) (T : list (ev place unit vlabel)) (s : vstate) : Prop := {
  r_arg : forall t v, arg (vpcs s t) = Some v -> exists i, nth_error T i = Some (t, ALab (VCall t (Some v)));
  r_x : forall n, typ s = Ty n -> exists i t v, stored tr T i t v /\ seenX T PTyp i;
  r_got : forall u, got (vpcs s u) = true -> exists i t v, stored tr T i t v /\ seen T i u
}.

Lemma R_all : forall tr T s, vruns tr T s -> R tr T s.
Proof.
  apply (traced_ind_inv vinit vstep value_acts R).
  - intros s (A & B). constructor; try rewrite A; try discriminate; intros; rewrite B in *; discriminate.
  - intros tr T s l s' H [Ra Rx Rg] St. pose proof (vinv_exec _ _ (traced_exec _ _ _ _ _ _ H)) as Iv.
    assert (Oa : forall t v, arg (vpcs s t) = Some v -> exists i, nth_error (T ++ value_acts s l) i = Some (t, ALab (VCall t (Some v)))).
    { intros t v Hp. destruct (Ra _ _ Hp) as [i Hi]. exists i. now apply nth_app_l. }
    assert (Ox : forall n, typ s = Ty n -> (forall e, In e (value_acts s l) -> ~ writes (snd e) PTyp) ->
      exists i t v, stored (tr ++ [l]) (T ++ value_acts s l) i t v /\ seenX (T ++ value_acts s l) PTyp i).
    { intros n Hp Hn. destruct (Rx _ Hp) as (i & t & v & W & X). exists i, t, v. split; [now apply stored_app|]. clear - X Hn. revert Hn.
      generalize (value_acts s l) as es. induction es as [|[u a] es IH] using rev_ind; intros Hn; [now rewrite app_nil_r|].
      rewrite app_assoc. apply seenX_snoc; [apply IH; auto; intros; apply Hn, in_or_app; auto|]. apply (Hn (u, a)), in_or_app. right. now left. }
    assert (Og : forall u, got (vpcs s u) = true -> exists i t v, stored (tr ++ [l]) (T ++ value_acts s l) i t v /\ seen (T ++ value_acts s l) i u).
    { intros u Hp. destruct (Rg _ Hp) as (i & t & v & W & X). exists i, t, v. split; [now apply stored_app|now apply seen_app]. }
    Ltac nw := intros e He [W|[W|W]]; cbn in He; repeat match goal with X : ?p ?t = _ |- _ => rewrite X in He end; cbn in He;
      repeat (destruct He as [He|He]; [subst e; cbn in W; discriminate W|]); contradiction.
    Ltac og u Hp := unfold upd in Hp; match type of Hp with context [if Nat.eqb ?t u then _ else _] => destruct (Nat.eqb_spec t u) as [?|?]; [subst u; cbn in Hp; try discriminate Hp|eauto] end.
    inversion St; subst; cbn [typ dat vpcs] in *; constructor; cbn [typ dat vpcs]; auto;
      try solve [let u := fresh "u" in let w := fresh "w" in let Hp := fresh "Hp" in intros u w Hp; og u Hp];
      try solve [let u := fresh "u" in let Hp := fresh "Hp" in intros u Hp; og u Hp];
      try (let n := fresh "n" in let Hp := fresh "Hp" in intros n Hp; discriminate Hp);
      try (let n := fresh "n" in let Hp := fresh "Hp" in intros n Hp; solve [apply (Ox n Hp); nw]).
    all: try solve [let u := fresh "u" in let w := fresh "w" in let Hp := fresh "Hp" in intros u w Hp; og u Hp;
      apply Oa; match goal with X : ?q ?x = _ |- arg (?q ?x) = _ => rewrite X end; exact Hp].
    + intros u w Hp. og u Hp. destruct v; [|discriminate]. injection Hp as ->. exists (length T). apply nth_last.
    + intros u Hp. og u Hp. destruct (Rx _ eq_refl) as (i & t0 & v0 & W & X). exists i, t0, v0. split; [now apply stored_app|].
      cbn [value_acts vpcs]. rewrite H0. apply hb_seen. eapply seenX_next; eauto; [exact I|right; now left].
    + intros n Hp. apply (Ox n Hp). subst y. nw.
    + intros n Hp. destruct (Ra t v) as (i & Hi); [now rewrite H0|]. exists i, t, v.
      split; [split; [now apply nth_app_l|apply in_or_app; right; now left]|]. apply seen_write; [eapply seen_self; eauto|exact I|right; now left].
    + intros u Hp. og u Hp. destruct (Rx _ eq_refl) as (i & t0 & v0 & W & X). exists i, t0, v0. split; [now apply stored_app|].
      cbn [value_acts vpcs]. rewrite H0. apply hb_seen. eapply seenX_next; eauto; [exact I|right; now left].
    + intros u Hp. og u Hp. apply Og. now rewrite H0.
Qed.

Lemma value_last : forall s l k t b, nth_error (value_acts s l) k = Some (t, ALab b) ->
  b = l /\ exists pre, value_acts s l = pre ++ [(t, ALab b)] /\ k = length pre.
Proof.
  intros s l k t b Hn. destruct l; cbn [value_acts] in Hn |- *;
    try (destruct k as [|[|k]]; try discriminate; injection Hn as <- <-; split; auto; (now exists []));
    exfalso; apply nth_error_In, in_map_iff in Hn; destruct Hn as (a & Ha & Hin); injection Ha as -> ->;
    unfold value_tau in Hin; destruct (vpcs s _); cbn in Hin; try (destruct (typ s)); cbn in Hin; intuition discriminate.
Qed.

Lemma stored_val : forall tr T s i t v, vruns tr T s -> stored tr T i t v -> commits tr = [(t, v)].
Proof.
  intros tr T s i t v H [_ W]. pose proof (vinv_exec _ _ (traced_exec _ _ _ _ _ _ H)) as Iv.
  assert (X : In (t, v) (commits tr)).
  { clear - W. induction tr as [|x tr IH]; [destruct W|]. destruct W as [->|W]; [now left|]. destruct x; cbn; auto; now right; auto. }
  unfold vinv in Iv. destruct (typ s); [destruct Iv as (E & _)|destruct Iv as (E & _)|destruct Iv as (w & g & E & _)]; rewrite E in X |- *; try contradiction.
  destruct X as [X|[]]. now rewrite X.
Qed.

(** Whoever gets g from Value(): some Write with g was called, and stored g, and that call happens before. *)
Theorem C105_value_get : forall tr T s j u g, vruns tr T s -> nth_error T j = Some (u, ALab (VLoadRet u (Some g))) ->
  exists i t, stored tr T i t g /\ hb T i j.
Proof.
  intros tr T s j u g H Hj.
  destruct (label_at _ _ _ (fun l => l) value_last _ _ _ _ _ _ H Hj) as (tr1 & T1 & s1 & s2 & l & pre & T2 & H1 & St & <- & Ea & (tr2 & ->) & -> & ->).
  cbn in Ea. destruct pre as [|e [|? ?]]; try discriminate Ea. rewrite app_nil_r.
  inversion St; subst. match goal with X : ?p u = _ |- _ => rename X into Hp end.
  destruct (r_got _ _ _ (R_all _ _ _ H1) u) as (i & t & v & W & P); [cbn; now rewrite Hp|].
  assert (v = g).
  { pose proof (stored_val _ _ _ _ _ _ H1 W) as E. pose proof (vinv_exec _ _ (traced_exec _ _ _ _ _ _ H1)) as Iv. unfold vinv in Iv. cbn [typ dat vpcs] in Iv.
    destruct y; [destruct Iv as (E' & _)|destruct Iv as (E' & _)|destruct Iv as (w & g' & E' & _ & _ & _ & _ & _ & K)]; try congruence.
    specialize (K u). rewrite Hp in K. congruence. }
  subst v. exists i, t. split; [now apply stored_app|]. now apply seen_lab.
Qed.
(** A Write that returns false comes after the call of the Write that succeeded. *)
Theorem C105_value_false : forall tr T s j u, vruns tr T s -> nth_error T j = Some (u, ALab (VReturn u false)) ->
  exists i t v, stored tr T i t v /\ hb T i j.
Proof.
  intros tr T s j u H Hj.
  destruct (label_at _ _ _ (fun l => l) value_last _ _ _ _ _ _ H Hj) as (tr1 & T1 & s1 & s2 & l & pre & T2 & H1 & St & <- & Ea & (tr2 & ->) & -> & ->).
  cbn in Ea. destruct pre as [|e [|? ?]]; try discriminate Ea. rewrite app_nil_r.
  inversion St; subst. match goal with X : ?p u = _ |- _ => rename X into Hp end.
  destruct (r_got _ _ _ (R_all _ _ _ H1) u) as (i & t & v & W & P); [cbn; now rewrite Hp|].
  exists i, t, v. split; [now apply stored_app|]. now apply seen_lab.
Qed.
(** One Write at most stores its value. *)
Theorem C105_value_one : forall tr T s i j t u v w, vruns tr T s -> stored tr T i t v -> stored tr T j u w -> t = u /\ v = w.
Proof. intros tr T s i j t u v w H W1 W2. apply (stored_val _ _ _ _ _ _ H) in W1. apply (stored_val _ _ _ _ _ _ H) in W2. rewrite W1 in W2. now injection W2. Qed.
Print Assumptions C105_chan_value.
Print Assumptions C105_chan_end.
Print Assumptions C105_chan_false.
Print Assumptions C105_chan_one.
Print Assumptions C105_chan_once.
Print Assumptions C105_value_get.
Print Assumptions C105_value_false.
Print Assumptions C105_value_one.

Ltac go H c := let H' := fresh in let G := fresh in
  (match type of H with traced _ ?st _ _ _ ?s => eassert (G : st s _ _) by c end); pose proof (tr_snoc _ _ _ _ _ _ _ _ H G) as H'; clear H G; rename H' into H.
(** A run: goroutine 0 writes 7, goroutine 1 loses with 8, goroutine 2 receives 7 and then finds the channel closed. *)
Example C105_chan_ex : exists tr T s, traced (@oinit nat) chan_step chan_acts tr T s /\ (exists i, nth_error T i = Some (2, ALab (ORecv (Some 7)))) /\
  (exists i, nth_error T i = Some (2, ALab (ORecv None))) /\ (exists i, nth_error T i = Some (1, ALab (OReturn 1 false))).
Proof.
  assert (H : traced (@oinit nat) chan_step chan_acts [] [] (OS false [] false (fun _ => OIdle))) by (apply tr_nil; repeat split).
  go H ltac:(refine (_ : chan_step _ (_, 2) _); eapply OSCall with (t := 0) (v := 7); reflexivity).
  go H ltac:(refine (_ : chan_step _ (_, 2) _); eapply OSCall with (t := 1) (v := 8); reflexivity).
  go H ltac:(refine (_ : chan_step _ (_, 2) _); eapply OSWin with (t := 0); reflexivity).
  go H ltac:(refine (_ : chan_step _ (_, 2) _); eapply OSLose with (t := 1); reflexivity).
  go H ltac:(refine (_ : chan_step _ (_, 2) _); eapply OSRet with (t := 1); reflexivity).
  go H ltac:(refine (_ : chan_step _ (_, 2) _); eapply OSSend with (t := 0); [reflexivity|cbn; auto]).
  go H ltac:(refine (_ : chan_step _ (_, 2) _); eapply OSRecv).
  go H ltac:(refine (_ : chan_step _ (_, 2) _); eapply OSClose with (t := 0); reflexivity).
  go H ltac:(refine (_ : chan_step _ (_, 2) _); eapply OSRecvClosed).
  eexists _, _, _. split; [exact H|]. split; [exists 7|split; [exists 10|exists 4]]; reflexivity.
Qed.
(** A run: goroutine 0 writes, goroutine 1 with a value of the same type loses, goroutine 2 gets the value. *)
Example C105_value_ex : exists tr T s, vruns tr T s /\ (exists i, nth_error T i = Some (2, ALab (VLoadRet 2 (Some (GV 1 7%Z))))) /\
  (exists i, nth_error T i = Some (1, ALab (VReturn 1 false))).
Proof.
  assert (H : vruns [] [] (VS TyNil 0%Z (fun _ => VIdle))) by (apply tr_nil; repeat split).
  go H ltac:(eapply VSCall with (t := 0) (v := Some (GV 1 7%Z)); reflexivity).
  go H ltac:(eapply VSEnter with (t := 0); reflexivity).
  go H ltac:(eapply VSLoadNil with (t := 0); reflexivity).
  go H ltac:(eapply VSCasOk with (t := 0); reflexivity).
  go H ltac:(eapply VSData with (t := 0); reflexivity).
  go H ltac:(eapply VSType with (t := 0); reflexivity).
  go H ltac:(eapply VSCall with (t := 1) (v := Some (GV 1 8%Z)); reflexivity).
  go H ltac:(eapply VSEnter with (t := 1); reflexivity).
  go H ltac:(eapply VSLoadSame with (t := 1) (v := GV 1 8%Z); reflexivity).
  go H ltac:(eapply VSRet with (t := 1); reflexivity).
  go H ltac:(eapply VSLCall with (t := 2); reflexivity).
  go H ltac:(eapply VSLTy with (t := 2); reflexivity).
  go H ltac:(eapply VSLData with (t := 2); reflexivity).
  go H ltac:(eapply VSLRet with (t := 2); reflexivity).
  eexists _, _, _. split; [exact H|]. split; [exists 11|exists 7]; reflexivity.
Qed.
