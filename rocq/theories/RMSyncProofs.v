(** * Proofs for C103 on the ResourceManager *)
From Coq Require Import List Bool Lia Arith.
From stdpp Require Import gmap.
From Verif Require Import Trans RMModel RMSpec RMProofs SyncSpec SyncProofs RMSyncModel.

Notation runs := (traced rinit rstep rm_acts).
Notation lk := (guarded (L := place) (M := object) (B := rlabel) MRw).
Notation rdr s := (fun t => reader (rp s t)).

Lemma no_reader : forall s, RInv s -> rd s = 0 -> forall t, reader (rp s t) = false.
Proof.
  intros s I Hz t. destruct (r_rd _ I) as (Ls & _ & Hl & Hi). destruct (reader (rp s t)) eqn:E; auto. apply Hi in E.
  destruct Ls; [contradiction|]. cbn in Hl. lia.
Qed.

Lemma rdr_upd : forall (p : nat -> rpc) t x u, reader (p t) = reader x -> reader (p u) = reader (upd p t x u).
Proof. intros p t x u E. unfold upd. destruct (Nat.eqb_spec t u) as [E'|E']; auto. subst. auto. Qed.
Lemma rdr_upd2 : forall (p : nat -> rpc) t x u, upd (fun t => reader (p t)) t (reader x) u = reader (upd p t x u).
Proof. intros p t x u. unfold upd. destruct (Nat.eqb_spec t u) as [E'|E']; auto. Qed.

Lemma ql : forall l : rlabel, quiet (L := place) (M := object) (ALab l).
Proof. intros. exact (q_lab (L := place) (M := object) l). Qed.
Lemma q_done : forall f, quiet (L := place) (B := rlabel) (ADone (MCall f)).
Proof. intros f x [[H|[H|H]]|[H|[H|H]]]; discriminate. Qed.
Lemma q_waited : forall f, quiet (L := place) (B := rlabel) (AWaited (MCall f)).
Proof. intros f x [[H|[H|H]]|[H|[H|H]]]; discriminate. Qed.

Lemma lk_step : forall (T : list ev) s l s', RInv s -> lk T (wr s) (rdr s) -> rstep s l s' -> lk (T ++ rm_acts s l) (wr s') (rdr s').
Proof.
  intros T s l s' I G St.
  assert (Hz : rd s = 0 -> forall t, reader (rp s t) = false) by (now apply no_reader).
  assert (Hw : forall t, writer (rp s t) = true -> wr s = Some t) by apply I.
  assert (C2 : forall (U : list ev) a b, U ++ [a; b] = (U ++ [a]) ++ [b]) by (intros; now rewrite <- app_assoc).
  assert (C3 : forall (U : list ev) a b c, U ++ [a; b; c] = ((U ++ [a]) ++ [b]) ++ [c]) by (intros; now rewrite <- !app_assoc).
  assert (C4 : forall (U : list ev) a b c d, U ++ [a; b; c; d] = (((U ++ [a]) ++ [b]) ++ [c]) ++ [d]) by (intros; now rewrite <- !app_assoc).
  assert (C5 : forall (U : list ev) a b c d e, U ++ [a; b; c; d; e] = ((((U ++ [a]) ++ [b]) ++ [c]) ++ [d]) ++ [e]) by (intros; now rewrite <- !app_assoc).
  assert (Q1 : forall U t w r l, lk U w r -> lk (U ++ [(t, ALab l)]) w r) by (intros; apply guarded_quiet; auto using ql; discriminate).
  rcases St E E2; unfold rm_acts; cbn [rp]; rewrite ?E; cbn [rm_tau map app];
    try (apply guarded_ext with (r := fun u => reader (p u)); [intros; apply rdr_upd; rewrite E; try reflexivity; bang; reflexivity|]);
    try (now apply Q1);
    try (assert (Hm : w = Some t) by (apply Hw; rewrite E; reflexivity)).
  - (* RLock *) eapply guarded_ext; [intros; apply (rdr_upd2 p t (GRead k f))|]. cbn. now apply guarded_rlock.
  - (* look *) rewrite C3. assert (Hr : reader (p t) = true) by (rewrite E; reflexivity).
    apply Q1. apply guarded_read; auto. apply guarded_read; auto.
  - (* RUnlock *) eapply guarded_ext; [intros; apply rdr_upd2|].
    replace (reader (match o with Some r => GDone k f (OVal r) | None => GCreate k f end)) with false by (destruct o; reflexivity). now apply guarded_runlock.
  - apply guarded_lock; auto.
  - rewrite C3. apply Q1. apply guarded_write; auto. apply guarded_read; auto.
  - rewrite C2. apply Q1. apply guarded_read; auto.
  - subst w. now apply guarded_unlock.
  - apply guarded_quiet; auto using q_done; try discriminate.
  - now rewrite app_nil_r.
  - apply guarded_quiet; auto using q_waited; try discriminate.
  - apply guarded_lock; auto.
  - rewrite C3. apply Q1. apply guarded_read; auto. apply guarded_read; auto.
  - rewrite C3. apply Q1. apply guarded_read; auto. apply guarded_read; auto.
  - rewrite C4. apply Q1. apply guarded_write; auto. apply guarded_read; auto. apply guarded_read; auto.
  - subst w. now apply guarded_unlock.
  - apply guarded_lock; auto.
  - case_bool_decide; cbn [app].
    + rewrite C5. apply Q1. apply guarded_write; auto. apply guarded_read; auto. apply guarded_read; auto. apply guarded_read; auto.
    + rewrite C3. apply Q1. apply guarded_read; auto. apply guarded_read; auto.
  - subst w. now apply guarded_unlock.
Qed.

Lemma lk_all : forall tr T s, runs tr T s -> lk T (wr s) (rdr s).
Proof.
  apply (traced_ind_inv rinit rstep rm_acts (fun _ T s => lk T (wr s) (rdr s))).
  - intros s (_ & Hw & _). apply guarded_nil. rewrite Hw. discriminate.
  - intros tr T s l s' H IH St. apply lk_step; auto. eapply rinv, traced_exec; eauto.
Qed.

(** ** Where a resource comes from *)
Definition made (T : list ev) (k : nat) (r : closer) (i : nat) : Prop :=
  exists t f, nth_error T i = Some (t, ALab (LCreateEnd t k f (CrVal r))).
Definition carries (p : rpc) (k : nat) (r : closer) : Prop :=
  match p with
  | GRUn k' _ (Some r') | GLock k' _ r' | GWrite k' _ r' | GUn k' _ r' | GDone k' _ (OVal r') | GForget k' _ (OVal r') | GRet k' _ (OVal r') => k' = k /\ r' = r
  | CLoop l _ => In (k, r) l
  | _ => False
  end.
Definition pub (T : list ev) (k : nat) (r : closer) (f : nat) : Prop := exists i, made T k r i /\ past T (ADone (MCall f)) i.

Record K (T : list ev) (s : rstate) : Prop := {
  k_map : forall k r, rmap s ≫= lookup k = Some r -> exists i, made T k r i /\ (past T (AUnlk MRw) i \/ exists u, wr s = Some u /\ seen T i u);
  k_pc : forall t k r, carries (rp s t) k r -> exists i, made T k r i /\ seen T i t;
  k_wait : forall t k f r, rp s t = GWait k f -> rs s f = Some (OVal r) -> pub T k r f;
  k_fl : forall k f r, fl s k = Some f -> rs s f = Some (OVal r) -> pub T k r f;
}.

Lemma made_app : forall T l k r i, made T k r i -> made (T ++ l) k r i.
Proof. intros T l k r i (t & f & H). exists t, f. now apply nth_app_l. Qed.
Lemma pub_app : forall T l k r i, pub T k r i -> pub (T ++ l) k r i.
Proof. intros T l k r f (i & H & H'). exists i. split; [now apply made_app|now apply past_app]. Qed.

(** A holder of the lock has seen where the content of the map comes from. *)
Lemma holder_sees : forall T s k r u, K T s -> lk T (wr s) (rdr s) -> rmap s ≫= lookup k = Some r ->
  wr s = Some u \/ reader (rp s u) = true -> exists i, made T k r i /\ seen T i u.
Proof.
  intros T s k r u HK G Hm Hu. destruct (k_map _ _ HK k r Hm) as (i & Hi & Hp). exists i. split; auto.
  destruct Hp as [Hp|(v & Hv & Hs)]; [eapply g_un; eauto|].
  destruct Hu as [Hu|Hu]; [congruence|]. rewrite (g_excl _ _ _ _ G v u Hv) in Hu. discriminate.
Qed.

Lemma K_step : forall T s l s', RInv s -> lk T (wr s) (rdr s) -> K T s -> rstep s l s' -> K (T ++ rm_acts s l) s'.
Proof.
  intros T s l s' I G HK St.
  assert (HP : forall A (P : A -> Prop) x, P x -> exists y, P y) by eauto.
  assert (Hs : forall k r u, rmap s ≫= lookup k = Some r -> wr s = Some u \/ reader (rp s u) = true -> exists i, made T k r i /\ seen T i u)
    by (intros; eapply holder_sees; eauto).
  assert (OldM : forall k r, rmap s ≫= lookup k = Some r -> exists i, made (T ++ rm_acts s l) k r i /\
    (past (T ++ rm_acts s l) (AUnlk MRw) i \/ exists u, wr s = Some u /\ seen (T ++ rm_acts s l) i u)).
  { intros k r Hm. destruct (k_map _ _ HK k r Hm) as (i & Hi & Hp). exists i. split; [now apply made_app|].
    destruct Hp as [Hp|(u & Hu & Hp)]; [left; now apply past_app|right; exists u; split; auto; now apply seen_app]. }
  assert (OldP : forall t k r, carries (rp s t) k r -> exists i, made (T ++ rm_acts s l) k r i /\ seen (T ++ rm_acts s l) i t).
  { intros t k r Hc. destruct (k_pc _ _ HK t k r Hc) as (i & Hi & Hp). exists i. split; [now apply made_app|now apply seen_app]. }
  assert (OldW : forall t k f r, rp s t = GWait k f -> rs s f = Some (OVal r) -> pub (T ++ rm_acts s l) k r f)
    by (intros; eapply pub_app, k_wait; eauto).
  assert (OldF : forall k f r, fl s k = Some f -> rs s f = Some (OVal r) -> pub (T ++ rm_acts s l) k r f)
    by (intros; eapply pub_app, k_fl; eauto).
  assert (HsA : forall k r u, rmap s ≫= lookup k = Some r -> wr s = Some u \/ reader (rp s u) = true -> exists i, made (T ++ rm_acts s l) k r i /\ seen (T ++ rm_acts s l) i u).
  { intros k r u H1 H2. destruct (Hs k r u H1 H2) as (i & Hi & Hp). exists i. split; [now apply made_app|now apply seen_app]. }
  assert (Un : forall t, writer (rp s t) = true -> rm_acts s l = [(t, AUnlk MRw)] -> forall k r, rmap s ≫= lookup k = Some r ->
    exists i, made (T ++ rm_acts s l) k r i /\ past (T ++ rm_acts s l) (AUnlk MRw) i).
  { intros t Hw Ea k r Hm. destruct (Hs k r t Hm) as (i & Hi & Hp); [left; now apply I|]. exists i. split; [now apply made_app|]. rewrite Ea. now apply seen_past. }
  pose proof (r_wr _ I) as IW. pose proof (r_rs _ I) as IR. pose proof (r_lead0 _ I) as IL. pose proof (r_lead _ I) as ILd.
  pose proof (r_wait _ I) as IWt. pose proof (r_inj _ I) as IJ. pose proof (r_ret _ I) as IRet. pose proof (r_forget _ I) as IFo.
  constructor.
  - (* the map *) intros kk rr. rcases St E E2; intros Hm; try (now apply OldM).
    + destruct (OldM kk rr Hm) as (i & Hi & [Hp|(u & Hu & _)]); [eauto|discriminate].
    + (* stored *) cbn in Hm. destruct (decide (k = kk)) as [->|Hd].
      * rewrite lookup_insert in Hm. injection Hm as <-. destruct (OldP t kk r) as (i & Hi & Hp); [rewrite E; cbn; auto|].
        exists i. split; auto. right. exists t. split; auto. apply IW. now rewrite E.
      * rewrite lookup_insert_ne in Hm by auto. now apply OldM.
    + destruct (Un t) with (k := kk) (r := rr) as (i & Hi & Hp); auto; [now rewrite E|cbn; now rewrite E|eauto].
    + destruct (OldM kk rr Hm) as (i & Hi & [Hp|(u & Hu & _)]); [eauto|discriminate].
    + destruct (Un t) with (k := kk) (r := rr) as (i & Hi & Hp); auto; [now rewrite E|cbn; now rewrite E|eauto].
    + destruct (OldM kk rr Hm) as (i & Hi & [Hp|(u & Hu & _)]); [eauto|discriminate].
    + destruct m as [m|]; [|discriminate]. cbn in Hm. destruct (decide (k = kk)) as [->|Hd]; [rewrite lookup_delete in Hm; discriminate|].
      rewrite lookup_delete_ne in Hm by auto. now apply OldM.
    + destruct (Un t) with (k := kk) (r := rr) as (i & Hi & Hp); auto; [now rewrite E|cbn; now rewrite E|eauto].
  - (* program counters *) intros uu kk rr.
    rcases St E E2; unfold upd at 1; (destruct (Nat.eqb_spec t uu) as [Eu|Eu]; [subst uu|now apply OldP]); cbn [carries]; try tauto.
    + (* look *) destruct (m ≫= lookup k) as [r|] eqn:Em; [|tauto]. intros [<- <-]. apply HsA; auto. right. now rewrite E.
    + destruct o as [r|]; cbn; [|tauto]. intros [<- <-]. apply OldP. rewrite E. cbn. auto.
    + destruct c as [r| | |]; cbn; try tauto. intros [<- <-]. exists (length T). split; [exists t, f; apply nth_last|apply seen_here].
    + intros [<- <-]. apply OldP. rewrite E. cbn. auto.
    + intros [<- <-]. apply OldP. rewrite E. cbn. auto.
    + intros [<- <-]. apply OldP. rewrite E. cbn. auto.
    + destruct o as [r| | |]; try tauto. intros [<- <-]. apply OldP. rewrite E. cbn. auto.
    + destruct o as [r| | |]; try tauto. intros [<- <-]. apply OldP. rewrite E. cbn. auto.
    + destruct o as [r| | |]; try tauto. intros [<- <-]. destruct (k_wait _ _ HK t k f r E E2) as (i & Hi & Hp).
      exists i. split; [now apply made_app|]. cbn. rewrite E. eapply past_seen; eauto. constructor.
    + (* Close starts *) intros Hin. assert (Hm : m ≫= lookup kk = Some rr).
      { apply elem_of_list_In in Hin. rewrite E2 in Hin. apply elem_of_map_to_list in Hin. destruct m; [exact Hin|]. cbn in Hin. rewrite lookup_empty in Hin. discriminate. }
      destruct (k_map _ _ HK kk rr Hm) as (i & Hi & [Hp|(u & Hu & _)]); [|discriminate].
      exists i. split; [now apply made_app|]. cbn. eapply past_seen; eauto. constructor.
    + destruct c; cbn; try tauto; intros Hin; eapply OldP; cbn [rp]; rewrite E; cbn; auto.
  - (* waiters *) intros uu kk ff rr. rcases St E E2; unfold upd;
      try (destruct (Nat.eqb_spec t uu) as [Eu|Eu]; [subst uu; first [discriminate|destruct o; discriminate|destruct c; discriminate]|]); try (intros; now eapply OldW; eauto).
    + destruct (Nat.eqb_spec t uu) as [Eu|Eu]; [subst uu|now apply OldW]. intros Ew Hr. injection Ew as <- <-. now apply OldF.
    + intros Hw. destruct (Nat.eqb_spec f ff) as [<-|Ef]; [|now apply OldW with uu]. intros Ho. injection Ho as ->.
      assert (k = kk).
      { destruct (IWt _ _ _ Hw) as [_ [Hf|Hf]]; [|exfalso; apply Hf; apply (IL t k f); now rewrite E].
        apply (IJ k kk f); auto. apply (ILd t). now rewrite E. }
      subst kk. destruct (k_pc _ _ HK t k rr) as (i & Hi & Hp); [cbn [rp]; rewrite E; cbn; auto|]. exists i. split; [now apply made_app|].
      cbn. rewrite E. now apply seen_past.
  - (* calls in flight *) intros kk ff rr. rcases St E E2; unfold upd; try (intros; now eapply OldF; eauto).
    + destruct (Nat.eqb_spec k kk) as [<-|Ek]; [|now apply OldF]. intros Ef Hr. injection Ef as <-. apply IR in Hr. lia.
    + intros Hf. destruct (Nat.eqb_spec f ff) as [<-|Ef]; [|now apply OldF]. intros Ho. injection Ho as ->.
      assert (k = kk) by (apply (IJ k kk f); auto; apply (ILd t); now rewrite E).
      subst kk. destruct (k_pc _ _ HK t k rr) as (i & Hi & Hp); [cbn [rp]; rewrite E; cbn; auto|]. exists i. split; [now apply made_app|].
      cbn. rewrite E. now apply seen_past.
    + destruct (Nat.eqb_spec k kk) as [<-|Ek]; [discriminate|]. apply OldF.
Qed.

Lemma K_all : forall tr T s, runs tr T s -> K T s.
Proof.
  apply (traced_ind_inv rinit rstep rm_acts (fun _ T s => K T s)).
  - intros s (Hm & _ & _ & Hf & Hr & Hp). constructor.
    + intros k r. rewrite Hm. cbn. rewrite lookup_empty. discriminate.
    + intros t k r. rewrite Hp. intros [].
    + intros t k f r. rewrite Hp. discriminate.
    + intros k f r. rewrite Hf. discriminate.
  - intros tr T s l s' H IH St. apply K_step; auto; [eapply rinv, traced_exec; eauto|eapply lk_all; eauto].
Qed.

(** ** Events with a label *)
Lemma lab_last : forall s l j t b, nth_error (rm_acts s l) j = Some (t, ALab b) ->
  b = l /\ exists pre, rm_acts s l = pre ++ [(t, ALab l)] /\ j = length pre.
Proof.
  intros s l j t b H.
  assert (X : forall (pre : list ev) u, (forall e, In e pre -> forall b', snd e <> ALab b') -> nth_error (pre ++ [(u, ALab l)]) j = Some (t, ALab b) ->
    u = t /\ b = l /\ j = length pre).
  { intros pre u Hp Hn. destruct (nth_snoc _ _ _ _ Hn) as [Hn'|[-> Hn']].
    - apply nth_error_In in Hn'. exfalso. now apply (Hp _ Hn' b).
    - injection Hn' as -> ->. auto. }
  assert (Y : forall (pre : list ev) u, (forall e, In e pre -> forall b', snd e <> ALab b') -> rm_acts s l = pre ++ [(u, ALab l)] ->
    b = l /\ exists pre, rm_acts s l = pre ++ [(t, ALab l)] /\ j = length pre).
  { intros pre u Hp He. rewrite He in H. destruct (X pre u Hp H) as (-> & Hb & Hj). split; auto. exists pre. auto. }
  assert (N : forall e : ev, In e [] -> forall b', snd e <> ALab b') by (intros e []).
  destruct l; cbn [rm_acts] in *; try (now apply (Y [] t0 N));
    try (apply (Y [(t0, ARd PField); (t0, ARd PMap)] t0); [|reflexivity]; cbn; intuition (subst; discriminate)).
  - apply (Y [(t0, ARd PField); (t0, AWr PMap)] t0); [|reflexivity]. cbn; intuition (subst; discriminate).
  - apply (Y [(t0, ARd PField)] t0); [|reflexivity]. cbn; intuition (subst; discriminate).
  - apply (Y [(t0, ARd PField); (t0, ARd PMap); (t0, AWr PField)] t0); [|reflexivity]. cbn; intuition (subst; discriminate).
  - destruct b0; [apply (Y [(t0, ARd PField); (t0, ARd PMap); (t0, ARd PField); (t0, AWr PMap)] t0)|apply (Y [(t0, ARd PField); (t0, ARd PMap)] t0)];
      try reflexivity; cbn; intuition (subst; discriminate).
  - destruct j as [|[|?]]; discriminate.
  - exfalso. apply nth_error_In, in_map_iff in H. destruct H as (a & Ha & Hin). injection Ha as -> ->.
    destruct (rp s t); cbn in Hin; intuition discriminate.
Qed.

Lemma lab_run : forall tr T s j t b, runs tr T s -> nth_error T j = Some (t, ALab b) ->
  exists tr1 T1 s1 s2 pre T2, runs tr1 T1 s1 /\ rstep s1 b s2 /\ T = (T1 ++ pre) ++ (t, ALab b) :: T2 /\ j = length (T1 ++ pre).
Proof.
  intros tr T s j t b H. revert j. induction H as [|tr T s l s' H IH St]; intros j Hj; [destruct j; discriminate|].
  destruct (Nat.lt_ge_cases j (length T)) as [Hl|Hl].
  - rewrite nth_error_app1 in Hj by auto. destruct (IH j Hj) as (tr1 & T1 & s1 & s2 & pre & T2 & A & B & C & D).
    exists tr1, T1, s1, s2, pre, (T2 ++ rm_acts s l). subst. rewrite <- !app_assoc. cbn. auto.
  - rewrite nth_error_app2 in Hj by auto. destruct (lab_last _ _ _ _ _ Hj) as (-> & pre & Hp & Hj').
    exists tr, T, s, s', pre, []. rewrite Hp, (app_assoc T). split; [auto|]. split; [auto|]. split; [auto|]. transitivity (length T + (j - length T)); [lia|]. rewrite Hj'. symmetry. apply app_length.
Qed.
