(** * C100: what happens before what in an execution of MapFineModel without Clear *)
From Coq Require Import List Bool Arith Lia Permutation.
From Verif Require Import Trans RaceSpec RaceProofs MapConcSpec MapConcModel MapKeySpec MapFineModel MapRaceSpec MapRaceOk.
Import ListNotations.

Section Inv.
Context {K V : Type}.
Notation label := (label K V).
Notation prog := (prog K V).
Notation fact := (fact V).
Notation fmem := (fmem K V).
Notation act := (act loc label).
Notation ev := (ev loc label).
Notation lkst := (option dknow).
Implicit Types (T : list ev) (g : fmem) (lks : nat -> lkst) (Gs : nat -> list fact) (a b : act).

(** m.dirty is m and m is not in m.read: the holder of the lock may write m *)
Definition wr g lks (m : nat) : Prop := fdirty g = Some m /\ forall u, lks u <> Some DPub.
Definition prot T g (i : nat) : Prop := match flk g with None => seenL T i | Some t => seen T i t end.
Definition init_of T n i : Prop := exists u, nth_error T i = Some (u, AWr (LEnt n) false).
Definition mapw T m i : Prop := exists u, nth_error T i = Some (u, AWr (LMap m) false).
Definition cellw T n s i : Prop := exists u, nth_error T i = Some (u, AWr (LCell n s) false).
Definition given T v i : Prop := exists u a, nth_error T i = Some (u, a) /\ gives a v.
(** i happens before any look at entry n that finds its present value *)
Definition along T n i : Prop := seenX T (LEnt n) i \/ exists j, init_of T n j /\ hb T i j.
Definition holds T g lks (t : nat) (f : fact) : Prop :=
  match f with
  | KMap m => m < fnmap g /\ ~ wr g lks m /\ (forall i, mapw T m i -> seen T i t) /\
      (forall key e i, In (key, e) (fmaps g m) -> init_of T (snd e) i -> seen T i t)
  | KEnt n => n < fnid g /\ forall i, init_of T n i -> seen T i t
  | KCell n s v => s < fnst g n /\ (forall i, cellw T n s i -> seen T i t) /\ exists i, given T v i /\ seen T i t
  | KVal v => exists i, given T v i /\ seen T i t
  | KClr => False
  end.
Definition guarded a : Prop :=
  touches a LDirty \/ touches a LMisses \/ (exists m, writes a (LMap m)) \/ exists n, a = AWr (LEnt n) false.
(** How each place is accessed *)
Definition shape a : Prop :=
  match a with
  | ARd LRead f | AWr LRead f | ARd (LEnt _) f => f = true
  | ACas (LEnt _) | AWr (LEnt _) _ => True
  | ARd _ f | AWr _ f => f = false
  | ACas _ => False
  | _ => True
  end.

Record Inv T g lks Gs : Prop := {
  i_lk : forall t, flk g = Some t <-> lks t <> None;
  i_dis : forall t d, lks t = Some (DIs d) -> fdirty g = d;
  i_facts : forall t f, In f (Gs t) -> holds T g lks t f;
  i_race : race_free T;
  i_prot : forall i u a, nth_error T i = Some (u, a) -> guarded a -> prot T g i;
  i_dlt : forall m, fdirty g = Some m -> m < fnmap g;
  i_dirty : forall m i u a, wr g lks m -> nth_error T i = Some (u, a) -> touches a (LMap m) -> prot T g i;
  i_rlt : forall m (b : bool), fread g = (Some m, b) -> m < fnmap g /\ ~ wr g lks m;
  i_readw : forall m (b : bool) i, fread g = (Some m, b) -> mapw T m i -> seenX T LRead i;
  i_reade : forall m (b : bool) key e i, fread g = (Some m, b) -> In (key, e) (fmaps g m) -> init_of T (snd e) i -> seenX T LRead i;
  i_ent : forall m key e, In (key, e) (fmaps g m) -> snd e < fnid g;
  i_fmap : forall i u a m, nth_error T i = Some (u, a) -> touches a (LMap m) -> m < fnmap g;
  i_fent : forall i u a n, nth_error T i = Some (u, a) -> touches a (LEnt n) -> n < fnid g;
  i_fcell : forall i u a n s, nth_error T i = Some (u, a) -> touches a (LCell n s) -> s < fnst g n;
  i_hlt : forall n s v, fheap g n = EVal s v -> s < fnst g n;
  i_hcell : forall n s v i, fheap g n = EVal s v -> cellw T n s i -> along T n i;
  i_hval : forall n s v, fheap g n = EVal s v -> exists i, given T v i /\ along T n i;
  i_shape : forall i u a, nth_error T i = Some (u, a) -> shape a;
  i_hands : forall j u a v, nth_error T j = Some (u, a) -> hands a v -> exists i, given T v i /\ hb T i j
}.

Lemma init_snoc : forall T t a n i, init_of (T ++ [(t, a)]) n i -> init_of T n i \/ (i = length T /\ a = AWr (LEnt n) false).
Proof. intros T t a n i (u & Hn). destruct (nth_snoc _ _ _ _ Hn) as [Hn'|[-> E]]; [left; now exists u|]. right. now inversion E. Qed.
Lemma mapw_snoc : forall T t a m i, mapw (T ++ [(t, a)]) m i -> mapw T m i \/ (i = length T /\ a = AWr (LMap m) false).
Proof. intros T t a m i (u & Hn). destruct (nth_snoc _ _ _ _ Hn) as [Hn'|[-> E]]; [left; now exists u|]. right. now inversion E. Qed.
Lemma cellw_snoc : forall T t a n s i, cellw (T ++ [(t, a)]) n s i -> cellw T n s i \/ (i = length T /\ a = AWr (LCell n s) false).
Proof. intros T t a n s i (u & Hn). destruct (nth_snoc _ _ _ _ Hn) as [Hn'|[-> E]]; [left; now exists u|]. right. now inversion E. Qed.
Lemma given_app : forall T l v i, given T v i -> given (T ++ l) v i.
Proof. intros T l v i (u & a & Hn & Hg). exists u, a. split; [now apply nth_app_l|exact Hg]. Qed.
Lemma init_app : forall T l n i, init_of T n i -> init_of (T ++ l) n i.
Proof. intros T l n i (u & Hn). exists u. now apply nth_app_l. Qed.
Lemma along_snoc : forall T t a n i, along T n i -> ~ writes a (LEnt n) -> along (T ++ [(t, a)]) n i.
Proof.
  intros T t a n i [Hs|(j & Hj & Hh)] Hw; [left; now apply seenX_snoc|]. right. exists j. split; auto using init_app, hb_app.
Qed.
Lemma wr_lt : forall T g lks Gs m, Inv T g lks Gs -> wr g lks m -> m < fnmap g.
Proof. intros T g lks Gs m Hi [Hd _]. eapply i_dlt; eauto. Qed.

(** One event of goroutine t *)
Section Step.
Variables (T : list ev) (g : fmem) (lks : nat -> lkst) (Gs : nat -> list fact) (t : nat) (a : act) (g' : fmem) (lks' : nat -> lkst).
Notation T' := (T ++ [(t, a)]).
Hypothesis HI : Inv T g lks Gs.

(** What every step keeps of the things others know *)
Record frame : Prop := {
  fr_nmap : fnmap g <= fnmap g'; fr_nid : fnid g <= fnid g'; fr_nst : forall n, fnst g n <= fnst g' n;
  fr_map : forall m, m < fnmap g -> ~ wr g lks m -> ~ wr g' lks' m /\ fmaps g' m = fmaps g m /\ ~ writes a (LMap m);
  fr_ent : forall n, n < fnid g -> a <> AWr (LEnt n) false;
  fr_cell : forall n s, s < fnst g n -> a <> AWr (LCell n s) false
}.
Lemma holds_step : frame -> forall u f, holds T g lks u f -> holds T' g' lks' u f.
Proof.
  intros Hf u [m|n|n s v|v|]; cbn; auto.
  - intros (Hm & Hw & Hs & He). destruct (fr_map Hf m Hm Hw) as (Hw' & Hc & Hn). pose proof (fr_nmap Hf).
    split; [lia|]. split; auto. split.
    + intros i Hi. destruct (mapw_snoc _ _ _ _ _ Hi) as [Hi'|[-> E]]; [apply seen_app; auto|]. exfalso. apply Hn. left. eauto.
    + rewrite Hc. intros key e i Hin Hi. destruct (init_snoc _ _ _ _ _ Hi) as [Hi'|[-> E]]; [apply seen_app; eauto|].
      exfalso. eapply (fr_ent Hf); eauto. eapply i_ent; eauto.
  - intros (Hn & Hs). pose proof (fr_nid Hf). split; [lia|]. intros i Hi.
    destruct (init_snoc _ _ _ _ _ Hi) as [Hi'|[-> E]]; [apply seen_app; eauto|]. exfalso. eapply (fr_ent Hf); eauto.
  - intros (Hn & Hs & i & Hg & Hi). pose proof (fr_nst Hf n). split; [lia|]. split.
    + intros j Hj. destruct (cellw_snoc _ _ _ _ _ _ Hj) as [Hj'|[-> E]]; [apply seen_app; eauto|]. exfalso. eapply (fr_cell Hf); eauto.
    + exists i. split; [now apply given_app|now apply seen_app].
  - intros (i & Hg & Hi). exists i. split; [now apply given_app|now apply seen_app].
Qed.

Hypothesis Hfr : frame.
Hypothesis Hshape : shape a.
Hypothesis Hlk : forall u, flk g' = Some u <-> lks' u <> None.
Hypothesis Hdis : forall u d, lks' u = Some (DIs d) -> fdirty g' = d.
Hypothesis Hrace : forall i u b x, nth_error T i = Some (u, b) -> u <> t -> touches b x -> touches a x -> (writes b x \/ writes a x) ->
  ~ (atomic b /\ atomic a) -> seen T i t.
Hypothesis Hprot : forall i, prot T g i -> prot T' g' i.
Hypothesis Hprot' : guarded a -> flk g' = Some t.
Hypothesis Hdlt : forall m, fdirty g' = Some m -> m < fnmap g'.
Hypothesis Hwr : forall m, wr g' lks' m -> (wr g lks m \/ fnmap g <= m) /\ (touches a (LMap m) -> flk g' = Some t).
Hypothesis Hread : forall m (b : bool), fread g' = (Some m, b) ->
  (exists b0 : bool, fread g = (Some m, b0) /\ ~ writes a LRead) \/
  (atomic a /\ writes a LRead /\ m < fnmap g' /\ ~ wr g' lks' m /\ fmaps g' m = fmaps g m /\
   (forall i, mapw T m i -> seen T i t) /\ (forall key e i, In (key, e) (fmaps g m) -> init_of T (snd e) i -> seen T i t)).
Hypothesis Hent : forall m key e, In (key, e) (fmaps g' m) -> snd e < fnid g'.
Hypothesis Hfmap : forall m, touches a (LMap m) -> m < fnmap g'.
Hypothesis Hfent : forall n, touches a (LEnt n) -> n < fnid g'.
Hypothesis Hfcell : forall n s, touches a (LCell n s) -> s < fnst g' n.
Hypothesis Hheap : forall n s v, fheap g' n = EVal s v ->
  (fheap g n = EVal s v /\ ~ writes a (LEnt n)) \/
  (holds T g lks t (KCell n s v) /\ ((atomic a /\ writes a (LEnt n)) \/ a = AWr (LEnt n) false)).
Hypothesis Hhands : forall v, hands a v -> holds T g lks t (KVal v).

Lemma prot_here : flk g' = Some t -> prot T' g' (length T).
Proof. intros E. unfold prot. rewrite E. apply seen_here. Qed.
Lemma inv_step : Inv T' g' lks' Gs.
Proof.
  split; auto.
  - intros u f Hf. apply holds_step; auto. eapply i_facts; eauto.
  - apply race_free_snoc; [eapply i_race; eauto|]. intros. apply seen_next. eapply Hrace; eauto.
  - intros i u b Hn Hg. destruct (nth_snoc _ _ _ _ Hn) as [Hn'|[-> E]]; [apply Hprot; eapply i_prot; eauto|].
    inversion E; subst. apply prot_here; auto.
  - intros m i u b Hw Hn Ht. destruct (Hwr m Hw) as [Ho Hh]. destruct (nth_snoc _ _ _ _ Hn) as [Hn'|[-> E]].
    + destruct Ho as [Ho|Ho]; [apply Hprot; eapply i_dirty; eauto|]. pose proof (i_fmap _ _ _ _ HI _ _ _ _ Hn' Ht). lia.
    + inversion E; subst. apply prot_here; auto.
  - intros m b Hm. destruct (Hread m b Hm) as [(b0 & Hb & Hw)|(_ & _ & Hl & Hw & _)]; auto.
    destruct (i_rlt _ _ _ _ HI m b0 Hb) as [Hl Hn]. pose proof (fr_nmap Hfr). split; [lia|]. now apply (fr_map Hfr).
  - intros m b i Hm Hi. destruct (Hread m b Hm) as [(b0 & Hb & Hw)|(Ha & Hw & Hl & _ & _ & Hs & _)].
    + destruct (i_rlt _ _ _ _ HI m b0 Hb) as [Hl Hn]. apply seenX_snoc; auto. destruct (mapw_snoc _ _ _ _ _ Hi) as [Hi'|[-> E]].
      * eapply i_readw; eauto.
      * exfalso. eapply (fr_map Hfr m); eauto. left. eauto.
    + apply seen_write; auto. destruct (mapw_snoc _ _ _ _ _ Hi) as [Hi'|[-> E]]; auto. rewrite E in Hw. destruct Hw as [[f Hw]|Hw]; discriminate.
  - intros m b key e i Hm He Hi. destruct (Hread m b Hm) as [(b0 & Hb & Hw)|(Ha & Hw & Hl & _ & Hc & _ & Hs)].
    + destruct (i_rlt _ _ _ _ HI m b0 Hb) as [Hl Hn]. destruct (fr_map Hfr m Hl Hn) as (_ & Hc & _). rewrite Hc in He.
      apply seenX_snoc; auto. destruct (init_snoc _ _ _ _ _ Hi) as [Hi'|[-> E]].
      * eapply i_reade; eauto.
      * exfalso. eapply (fr_ent Hfr); eauto. eapply i_ent; eauto.
    + rewrite Hc in He. apply seen_write; auto. destruct (init_snoc _ _ _ _ _ Hi) as [Hi'|[-> E]]; eauto.
      rewrite E in Hw. destruct Hw as [[f Hw]|Hw]; discriminate.
  - intros i u b m Hn Ht. destruct (nth_snoc _ _ _ _ Hn) as [Hn'|[-> E]]; [|inversion E; subst; auto].
    pose proof (i_fmap _ _ _ _ HI _ _ _ _ Hn' Ht). pose proof (fr_nmap Hfr). lia.
  - intros i u b n Hn Ht. destruct (nth_snoc _ _ _ _ Hn) as [Hn'|[-> E]]; [|inversion E; subst; auto].
    pose proof (i_fent _ _ _ _ HI _ _ _ _ Hn' Ht). pose proof (fr_nid Hfr). lia.
  - intros i u b n s Hn Ht. destruct (nth_snoc _ _ _ _ Hn) as [Hn'|[-> E]]; [|inversion E; subst; auto].
    pose proof (i_fcell _ _ _ _ HI _ _ _ _ _ Hn' Ht). pose proof (fr_nst Hfr n). lia.
  - intros n s v Hv. destruct (Hheap n s v Hv) as [[Ho _]|[(Hs & _) _]].
    + pose proof (i_hlt _ _ _ _ HI _ _ _ Ho). pose proof (fr_nst Hfr n). lia.
    + pose proof (fr_nst Hfr n). lia.
  - intros n s v i Hv Hi. destruct (Hheap n s v Hv) as [[Ho Hw]|[(Hs & Hc & _) Hw]].
    + apply along_snoc; auto. destruct (cellw_snoc _ _ _ _ _ _ Hi) as [Hi'|[-> E]]; [eapply i_hcell; eauto|].
      exfalso. eapply (fr_cell Hfr n s); eauto. eapply i_hlt; eauto.
    + destruct (cellw_snoc _ _ _ _ _ _ Hi) as [Hi'|[-> E]]; [|exfalso; eapply (fr_cell Hfr n s); eauto].
      destruct Hw as [[Ha Hw]| ->]; [left; apply seen_write; auto|]. right. exists (length T). split; [exists t; apply nth_last|].
      apply seen_next. auto.
  - intros n s v Hv. destruct (Hheap n s v Hv) as [[Ho Hw]|[(Hs & _ & i & Hg & Hi) Hw]].
    + destruct (i_hval _ _ _ _ HI _ _ _ Ho) as (i & Hg & Hi). exists i. split; [now apply given_app|]. now apply along_snoc.
    + exists i. split; [now apply given_app|]. destruct Hw as [[Ha Hw]| ->]; [left; apply seen_write; auto|].
      right. exists (length T). split; [exists t; apply nth_last|]. apply seen_next. auto.
  - intros i u b Hn. destruct (nth_snoc _ _ _ _ Hn) as [Hn'|[-> E]]; [eapply i_shape; eauto|]. now inversion E; subst.
  - intros j u b v Hn Hh. destruct (nth_snoc _ _ _ _ Hn) as [Hn'|[-> E]].
    + destruct (i_hands _ _ _ _ HI _ _ _ _ Hn' Hh) as (i & Hg & Hb). exists i. split; [now apply given_app|now apply hb_app].
    + inversion E; subst. destruct (Hhands v Hh) as (i & Hg & Hs). exists i. split; [now apply given_app|now apply seen_next].
Qed.
End Step.

Lemma inv_know : forall T g lks Gs t f, Inv T g lks Gs -> holds T g lks t f -> Inv T g lks (upd Gs t (f :: Gs t)).
Proof.
  intros T g lks Gs t f Hi Hf. destruct Hi. split; auto. intros u h Hin.
  destruct (Nat.eq_dec t u) as [->|Hd]; [rewrite upd_same in Hin; destruct Hin as [<-|Hin]; auto|rewrite upd_other in Hin; auto].
Qed.
Lemma inv_know_all : forall T g lks t F Gs, Inv T g lks Gs -> (forall f, In f F -> holds T g lks t f) -> Inv T g lks (upd Gs t (F ++ Gs t)).
Proof.
  intros T g lks t F Gs Hi Hf. destruct Hi. split; auto. intros u h Hin.
  destruct (Nat.eq_dec t u) as [->|Hd]; [rewrite upd_same in Hin; apply in_app_or in Hin; destruct Hin as [Hin|Hin]; auto|rewrite upd_other in Hin; auto].
Qed.

(** What the accesses on the left of a step can be *)
Ltac acc :=
  repeat match goal with
  | H : touches _ _ |- _ => destruct H
  | H : reads _ _ |- _ => destruct H as [[? H]|H]
  | H : writes _ _ |- _ => destruct H as [[? H]|H]
  | H : guarded _ |- _ => destruct H as [H|[H|[[? H]|[? H]]]]
  end; try discriminate.
Ltac accs := acc; subst; repeat match goal with H : @eq act (_ _) (_ _) |- _ => inversion H; subst; clear H | H : @eq act (_ _ _) (_ _ _) |- _ => inversion H; subst; clear H end.

Ltac acq := intros; try (let H := fresh in intro H); accs.

Lemma prot_same : forall T g g' l i, flk g' = flk g -> prot T g i -> prot (T ++ l) g' i.
Proof. intros T g g' l i E. unfold prot. rewrite E. destruct (flk g); [apply seen_app|apply seenL_app]. Qed.

Lemma frame_same : forall g lks a, (forall m, ~ writes a (LMap m)) -> (forall n, a <> AWr (LEnt n) false) -> (forall n s, a <> AWr (LCell n s) false) ->
  frame g lks a g lks.
Proof. intros g lks a Hm He Hc. split; auto. Qed.

Lemma writes_mapw : forall T g lks Gs i u b m, Inv T g lks Gs -> nth_error T i = Some (u, b) -> writes b (LMap m) -> mapw T m i.
Proof.
  intros T g lks Gs i u b m Hi Hn Hw. pose proof (i_shape _ _ _ _ Hi _ _ _ Hn) as Hs. accs; cbn in Hs; subst; [now exists u|easy].
Qed.
Lemma writes_cellw : forall T g lks Gs i u b n s, Inv T g lks Gs -> nth_error T i = Some (u, b) -> writes b (LCell n s) -> cellw T n s i.
Proof.
  intros T g lks Gs i u b n s Hi Hn Hw. pose proof (i_shape _ _ _ _ Hi _ _ _ Hn) as Hs. accs; cbn in Hs; subst; [now exists u|easy].
Qed.
Lemma plain_init : forall T g lks Gs i u b n, Inv T g lks Gs -> nth_error T i = Some (u, b) -> touches b (LEnt n) -> ~ atomic b -> init_of T n i.
Proof.
  intros T g lks Gs i u b n Hi Hn Ht Ha. pose proof (i_shape _ _ _ _ Hi _ _ _ Hn) as Hs. accs; cbn in Hs, Ha; subst; try easy.
  exists u. destruct x; [now destruct Ha|auto].
Qed.
Lemma read_atomic : forall T g lks Gs i u b, Inv T g lks Gs -> nth_error T i = Some (u, b) -> touches b LRead -> atomic b.
Proof. intros T g lks Gs i u b Hi Hn Ht. pose proof (i_shape _ _ _ _ Hi _ _ _ Hn) as Hs. accs; cbn in *; subst; auto. Qed.
Lemma holder_seen : forall T g lks Gs t i u b, Inv T g lks Gs -> lks t <> None -> nth_error T i = Some (u, b) -> guarded b -> seen T i t.
Proof.
  intros T g lks Gs t i u b Hi Hl Hn Hg. pose proof (i_prot _ _ _ _ Hi _ _ _ Hn Hg) as Hp. unfold prot in Hp.
  now rewrite (proj2 (i_lk _ _ _ _ Hi t) Hl) in Hp.
Qed.
Lemma holder_map : forall T g lks Gs t i u b m, Inv T g lks Gs -> lks t = Some (DIs (Some m)) -> nth_error T i = Some (u, b) -> touches b (LMap m) -> seen T i t.
Proof.
  intros T g lks Gs t i u b m Hi Hl Hn Ht.
  assert (Hk : flk g = Some t) by (apply (i_lk _ _ _ _ Hi); congruence).
  assert (Hw : wr g lks m).
  { split; [now apply (i_dis _ _ _ _ Hi t)|]. intros w Hw. assert (flk g = Some w) by (apply (i_lk _ _ _ _ Hi); congruence). congruence. }
  pose proof (i_dirty _ _ _ _ Hi _ _ _ _ Hw Hn Ht) as Hp. unfold prot in Hp. now rewrite Hk in Hp.
Qed.
Lemma holder_wr : forall T g lks Gs t m, Inv T g lks Gs -> lks t = Some (DIs (Some m)) -> wr g lks m.
Proof.
  intros T g lks Gs t m Hi Hl.
  assert (Hk : flk g = Some t) by (apply (i_lk _ _ _ _ Hi); congruence).
  split; [now apply (i_dis _ _ _ _ Hi t)|]. intros w Hw. assert (flk g = Some w) by (apply (i_lk _ _ _ _ Hi); congruence). congruence.
Qed.
(** what the holder of the lock knows of a map it reads *)
Lemma readable_writes : forall T g lks Gs t i m, Inv T g lks Gs -> readable (lks t) (Gs t) (Some m) -> mapw T m i -> seen T i t.
Proof.
  intros T g lks Gs t i m Hi [Hr|Hr] Hw.
  - destruct (i_facts _ _ _ _ Hi _ _ Hr) as (_ & _ & Hs & _). auto.
  - destruct Hw as (u & Hn). eapply holder_map; eauto. right. left. eauto.
Qed.
Lemma readable_entries : forall T g lks Gs t m key e, Inv T g lks Gs -> readable (lks t) (Gs t) (Some m) -> In (key, e) (fmaps g m) ->
  holds T g lks t (KEnt (snd e)).
Proof.
  intros T g lks Gs t m key e Hi Hr Hin. split; [eapply i_ent; eauto|]. intros i Hw. destruct Hr as [Hr|Hr].
  - destruct (i_facts _ _ _ _ Hi _ _ Hr) as (_ & _ & _ & Hs). eauto.
  - destruct Hw as (u & Hn). eapply holder_seen; eauto; [congruence|]. right. right. right. eauto.
Qed.
Lemma readable_lt : forall T g lks Gs t m, Inv T g lks Gs -> readable (lks t) (Gs t) (Some m) -> m < fnmap g.
Proof.
  intros T g lks Gs t m Hi [Hr|Hr]; [eapply (i_facts _ _ _ _ Hi _ _ Hr)|]. eapply i_dlt; eauto. now apply (i_dis _ _ _ _ Hi t).
Qed.

(** ** The events one by one *)
Section Events.
Variables (T : list ev) (g : fmem) (lks : nat -> lkst) (Gs : nat -> list fact) (t : nat).
Hypothesis HI : Inv T g lks Gs.

(** events that change nothing *)
Lemma inv_quiet : forall a, shape a -> ~ guarded a \/ lks t <> None -> (forall x, ~ writes a x) ->
  (forall i u b x, nth_error T i = Some (u, b) -> u <> t -> writes b x -> reads a x -> ~ (atomic b /\ atomic a) -> seen T i t) ->
  (forall m, touches a (LMap m) -> readable (lks t) (Gs t) (Some m)) ->
  (forall n, touches a (LEnt n) -> n < fnid g) -> (forall n s, touches a (LCell n s) -> s < fnst g n) ->
  (forall v, hands a v -> In (KVal v) (Gs t)) -> Inv (T ++ [(t, a)]) g lks Gs.
Proof.
  intros a Hs Hg Hw Hr Hm He Hc Hh.
  assert (Hl : lks t <> None -> flk g = Some t) by apply (i_lk _ _ _ _ HI).
  apply (inv_step T g lks Gs t a g lks HI); auto.
  - apply frame_same; intros; intros E; subst; eapply Hw; eauto; left; eauto.
  - apply (i_lk _ _ _ _ HI).
  - apply (i_dis _ _ _ _ HI).
  - intros i u b x Hn Hd Hb Ha Hbw Hat. destruct Hbw as [Hbw|Hbw]; [|now apply Hw in Hbw]. destruct Ha as [Ha|Ha]; [|now apply Hw in Ha].
    eapply Hr; eauto.
  - intros i. now apply prot_same.
  - intros Hga. destruct Hg as [Hg|Hg]; [contradiction|auto].
  - apply (i_dlt _ _ _ _ HI).
  - intros m Hwm. split; auto. intros Ht. destruct (Hm m Ht) as [Hk|Hk]; [|apply Hl; congruence].
    destruct (i_facts _ _ _ _ HI _ _ Hk) as (_ & Hn & _). contradiction.
  - intros m b Hb. left. exists b. split; auto.
  - apply (i_ent _ _ _ _ HI).
  - intros m Ht. eapply readable_lt; eauto.
  - intros v Hv. apply (i_facts _ _ _ _ HI t (KVal v)). auto.
Qed.
Lemma inv_label : forall l, (forall v, hands (L := loc) (ALab l) v -> In (KVal v) (Gs t)) -> Inv (T ++ [(t, ALab l)]) g lks Gs.
Proof. intros l Hh. apply inv_quiet; auto; try (cbn; auto; easy); acq. left. intros Hg. accs. Qed.
Lemma inv_loadread : Inv (T ++ [(t, ARd LRead true)]) g lks Gs.
Proof.
  apply inv_quiet; try (acq; fail); try (cbn; auto; easy).
  - left. intros Hg. accs.
  - intros i u b x Hn Hd Hw Hr Ha. exfalso. apply Ha. split; [|cbn; auto]. assert (x = LRead) by (accs; auto). subst x.
    eapply read_atomic; eauto. now right.
Qed.
Lemma inv_field : forall x, x = LDirty \/ x = LMisses -> lks t <> None -> Inv (T ++ [(t, ARd x false)]) g lks Gs.
Proof.
  intros x Hx Hl. apply inv_quiet; try (acq; destruct Hx; subst; discriminate).
  - destruct Hx; subst; cbn; auto.
  - auto.
  - intros i u b y Hn Hd Hw Hr Ha. eapply holder_seen; eauto. assert (y = x) by (accs; auto). subst y.
    destruct Hx; subst; [left|right; left]; now right.
  - cbn. contradiction.
Qed.
Lemma inv_mapread : forall m, readable (lks t) (Gs t) (Some m) -> Inv (T ++ [(t, ARd (LMap m) false)]) g lks Gs.
Proof.
  intros m Hm. apply inv_quiet; try (acq; fail); try (cbn; auto; easy).
  - left. intros Hg. accs.
  - intros i u b x Hn Hd Hw Hr Ha. eapply readable_writes; eauto. eapply writes_mapw; eauto. accs; [left|right]; eauto.
  - intros m' Ht. accs. auto.
Qed.
Lemma inv_mapread' : forall m, readable (lks t) (Gs t) m -> Inv (T ++ map (fun a => (t, a)) (map_read m)) g lks Gs.
Proof. intros [m|] Hm; cbn; [now apply inv_mapread|now rewrite app_nil_r]. Qed.
Lemma inv_entread : forall n, In (KEnt n) (Gs t) -> Inv (T ++ [(t, ARd (LEnt n) true)]) g lks Gs.
Proof.
  intros n Hn. destruct (i_facts _ _ _ _ HI _ _ Hn) as [Hlt Hs]. apply inv_quiet; try (acq; fail); try (cbn; auto; easy).
  - left. intros Hg. accs.
  - intros i u b x Hi Hd Hw Hr Ha. assert (x = LEnt n) by (accs; auto). subst x. apply Hs. eapply plain_init; eauto; [now right|].
    intros Hb. apply Ha. cbn. auto.
  - intros m Ht. accs. auto.
Qed.
Lemma inv_deref : forall n s v, In (KCell n s v) (Gs t) -> Inv (T ++ [(t, ARd (LCell n s) false)]) g lks Gs.
Proof.
  intros n s v Hn. destruct (i_facts _ _ _ _ HI _ _ Hn) as (Hlt & Hs & _). apply inv_quiet; try (acq; fail); try (cbn; auto; easy).
  - left. intros Hg. accs.
  - intros i u b x Hi Hd Hw Hr Ha. assert (x = LCell n s) by (accs; auto). subst x. apply Hs. eapply writes_cellw; eauto.
  - intros m s' Ht. accs. auto.
Qed.

(** the mutex *)
Lemma inv_lock : flk g = None -> Inv (T ++ [(t, ALock)]) (fwlock g (Some t)) (upd lks t (Some DAny)) Gs.
Proof.
  intros Hf.
  assert (Hn : forall u, lks u = None) by (intros u; destruct (lks u) eqn:E; auto; exfalso; assert (flk g = Some u) by (apply (i_lk _ _ _ _ HI); congruence); congruence).
  assert (Hp : forall u, upd lks t (Some DAny) u <> Some DPub) by (intros u; destruct (upd_cases lks t u (Some DAny)) as [[_ E]|[_ E]]; rewrite E; [discriminate|now rewrite Hn]).
  assert (Hw : forall m, wr (fwlock g (Some t)) (upd lks t (Some DAny)) m <-> wr g lks m).
  { intros m. unfold wr. cbn. split; intros [E _]; split; auto. intros u. now rewrite Hn. }
  apply (inv_step T g lks Gs t _ _ _ HI); try (acq; fail); try (cbn; auto; easy); cbn [fnmap fnid fnst fmaps fread fdirty fheap fwlock].
  - split; cbn; auto; try discriminate. intros m _ Hm. (split; [now rewrite Hw|]; split; [auto|acq]).
  - cbn. intros u. destruct (upd_cases lks t u (Some DAny)) as [[-> E]|[Hd E]]; rewrite E; [easy|]. rewrite Hn. split; congruence.
  - intros u d. destruct (upd_cases lks t u (Some DAny)) as [[-> E]|[Hd E]]; rewrite E; [easy|]. now rewrite Hn.
  - intros i. unfold prot. cbn. rewrite Hf. intros Hs. apply hb_seen. now apply seenL_next.
  - apply (i_dlt _ _ _ _ HI).
  - intros m Hm. split; [left; now apply Hw|]. intros Ha. accs.
  - intros m b Hb. left. exists b. split; auto. intros Ha. accs.
  - apply (i_ent _ _ _ _ HI).
  - intros n s v Hv. left. split; auto. intros Ha. accs.
Qed.
Lemma inv_unlock : lks t <> None -> lks t <> Some DPub -> Inv (T ++ [(t, AUnlock)]) (fwlock g None) (upd lks t None) Gs.
Proof.
  intros Hl Hnp. assert (Hf : flk g = Some t) by now apply (i_lk _ _ _ _ HI).
  assert (Ho : forall u, u <> t -> lks u = None) by (intros u Hu; destruct (lks u) eqn:E; auto; exfalso; assert (flk g = Some u) by (apply (i_lk _ _ _ _ HI); congruence); congruence).
  assert (Hn : forall u, upd lks t None u = None) by (intros u; destruct (upd_cases lks t u None) as [[_ E]|[Hd E]]; rewrite E; auto).
  assert (Hw : forall m, wr (fwlock g None) (upd lks t None) m <-> wr g lks m).
  { intros m. unfold wr. cbn. split; intros [E _]; split; auto; intros u.
    - destruct (Nat.eq_dec u t) as [->|Hd]; auto. now rewrite (Ho u Hd).
    - now rewrite Hn. }
  apply (inv_step T g lks Gs t _ _ _ HI); try (acq; fail); try (cbn; auto; easy); cbn [fnmap fnid fnst fmaps fread fdirty fheap fwlock].
  - split; cbn; auto; try discriminate. intros m _ Hm. (split; [now rewrite Hw|]; split; [auto|acq]).
  - cbn. intros u. rewrite Hn. split; congruence.
  - intros u d. now rewrite Hn.
  - intros i. unfold prot. cbn. rewrite Hf. apply seen_unlock.
  - apply (i_dlt _ _ _ _ HI).
  - intros m Hm. split; [left; now apply Hw|]. intros Ha. accs.
  - intros m b Hb. left. exists b. split; auto. intros Ha. accs.
  - apply (i_ent _ _ _ _ HI).
  - intros n s v Hv. left. split; auto. intros Ha. accs.
Qed.

(** m.dirty, m.misses and m.read *)
Lemma lk_only : lks t <> None -> forall u, u <> t -> lks u = None.
Proof.
  intros Hl u Hu. destruct (lks u) eqn:E; auto. exfalso.
  assert (flk g = Some u) by (apply (i_lk _ _ _ _ HI); congruence). assert (flk g = Some t) by now apply (i_lk _ _ _ _ HI). congruence.
Qed.
(** the goroutine that has the lock only learns something about m.dirty *)
Lemma inv_getdirty : lks t <> None -> lks t <> Some DPub -> Inv (T ++ [(t, ARd LDirty false)]) g (upd lks t (Some (DIs (fdirty g)))) Gs.
Proof.
  intros Hl Hnp. assert (H1 : Inv (T ++ [(t, ARd LDirty false)]) g lks Gs) by (apply inv_field; auto).
  pose proof (lk_only Hl) as Ho.
  assert (Hw : forall m, wr g (upd lks t (Some (DIs (fdirty g)))) m <-> wr g lks m).
  { intros m. unfold wr. split; intros [E Hp]; split; auto; intros u.
    - destruct (Nat.eq_dec u t) as [->|Hd]; auto. now rewrite (Ho u Hd).
    - destruct (upd_cases lks t u (Some (DIs (fdirty g)))) as [[_ Eu]|[_ Eu]]; rewrite Eu; try discriminate; auto. }
  destruct H1. split; auto.
  - intros u. destruct (upd_cases lks t u (Some (DIs (fdirty g)))) as [[-> Eu]|[_ Eu]]; rewrite Eu; auto. rewrite i_lk0. split; auto; discriminate.
  - intros u d. destruct (upd_cases lks t u (Some (DIs (fdirty g)))) as [[-> Eu]|[_ Eu]]; rewrite Eu; eauto. now inversion 1.
  - intros u f Hf. specialize (i_facts0 u f Hf). destruct f; cbn in *; auto. now rewrite Hw.
  - intros m i u a Hm. apply Hw in Hm. eauto.
  - intros m b Hb. rewrite Hw. eauto.
Qed.
Ltac std HI :=
  try (acq; fail); try (cbn; auto; easy);
  try (cbn; exact (i_lk _ _ _ _ HI)); try (cbn; exact (i_dis _ _ _ _ HI)); try (cbn; exact (i_dlt _ _ _ _ HI)); try (cbn; exact (i_ent _ _ _ _ HI));
  try (let i := fresh in intros i; now apply prot_same);
  try (let m := fresh in let h := fresh in intros m h; split; [now left|acq]; fail);
  try (let m := fresh in let b := fresh in let h := fresh in cbn; intros m b h; left; exists b; split; [assumption|acq]; fail);
  try (let h := fresh in cbn; intros ? ? ? h; left; split; [assumption|acq]; fail).
Lemma inv_nildirty : lks t <> None -> Inv (T ++ [(t, AWr LDirty false)]) (fwdirty g None) (upd lks t (Some (DIs None))) Gs.
Proof.
  intros Hl. pose proof (lk_only Hl) as Ho. assert (Hk : flk g = Some t) by now apply (i_lk _ _ _ _ HI).
  assert (Hw : forall m, ~ wr (fwdirty g None) (upd lks t (Some (DIs None))) m) by (intros m [E _]; discriminate).
  apply (inv_step T g lks Gs t _ _ _ HI); std HI.
  - split; cbn; auto; try discriminate. intros m _ _. (split; [apply Hw|]; split; [auto|acq]).
  - intros u. cbn. rewrite (i_lk _ _ _ _ HI). destruct (upd_cases lks t u (Some (DIs None))) as [[-> Eu]|[Hd Eu]]; rewrite Eu; [easy|tauto].
  - intros u d. destruct (upd_cases lks t u (Some (DIs None))) as [[-> Eu]|[Hd Eu]]; rewrite Eu; [now inversion 1|]. now rewrite Ho.
  - intros i u b x Hn Hd Hb Ha Hor Hat. eapply holder_seen; eauto. left. accs; unfold touches, reads, writes; eauto.
  - intros m Hm. now apply Hw in Hm.
Qed.
Lemma inv_makedirty : lks t <> None -> lks t <> Some DPub -> Inv (T ++ [(t, AWr LDirty false)]) (fwmake g) (upd lks t (Some DAny)) Gs.
Proof.
  intros Hl Hnp. pose proof (lk_only Hl) as Ho. assert (Hk : flk g = Some t) by now apply (i_lk _ _ _ _ HI).
  assert (Hw : forall m, wr (fwmake g) (upd lks t (Some DAny)) m -> m = fnmap g) by (intros m [E _]; now inversion E).
  apply (inv_step T g lks Gs t _ _ _ HI); std HI.
  - split; cbn; auto; try discriminate; try lia. intros m Hm _. split; [intros Hm'; apply Hw in Hm'; lia|]. split; [|acq].
    apply upd_other. lia.
  - intros u. cbn. rewrite (i_lk _ _ _ _ HI). destruct (upd_cases lks t u (Some DAny)) as [[-> Eu]|[Hd Eu]]; rewrite Eu; [easy|tauto].
  - intros u d. destruct (upd_cases lks t u (Some DAny)) as [[-> Eu]|[Hd Eu]]; rewrite Eu; [discriminate|]. now rewrite Ho.
  - intros i u b x Hn Hd Hb Ha Hor Hat. eapply holder_seen; eauto. left. accs; unfold touches, reads, writes; eauto.
  - cbn. intros m E. inversion E. lia.
  - intros m Hm. apply Hw in Hm. subst. split; [right; lia|acq].
  - cbn. intros m key e. destruct (upd_cases (fmaps g) (fnmap g) m []) as [[-> E]|[Hd E]]; rewrite E; [easy|]. apply (i_ent _ _ _ _ HI).
Qed.
Lemma inv_setmisses : forall n, lks t <> None -> Inv (T ++ [(t, AWr LMisses false)]) (fwmiss g n) lks Gs.
Proof.
  intros n0 Hl. assert (Hk : flk g = Some t) by now apply (i_lk _ _ _ _ HI).
  apply (inv_step T g lks Gs t _ _ _ HI); std HI.
  - split; cbn; auto; try discriminate. intros m _ Hm. (split; [auto|]; split; [auto|acq]).
  - intros i u b x Hn Hd Hb Ha Hor Hat. eapply holder_seen; eauto. right. left. accs; unfold touches, reads, writes; eauto.
Qed.
Lemma inv_storeread : forall r (b : bool), lks t <> None -> match r with Some i => In (KMap i) (Gs t) | None => True end ->
  Inv (T ++ [(t, AWr LRead true)]) (fwread g (r, b)) lks Gs.
Proof.
  intros r b0 Hl Hr. assert (Hk : flk g = Some t) by now apply (i_lk _ _ _ _ HI).
  apply (inv_step T g lks Gs t _ _ _ HI); std HI.
  - split; cbn; auto; try discriminate. intros m _ Hm. (split; [auto|]; split; [auto|acq]).
  - intros i u b x Hn Hd Hb Ha Hor Hat. exfalso. apply Hat. split; [|cbn; auto]. assert (x = LRead) by (accs; auto). subst x.
    eapply read_atomic; eauto.
  - cbn. intros m b Hb. inversion Hb; subst. right. destruct (i_facts _ _ _ _ HI _ _ Hr) as (Hlt & Hw & Hs & He).
    split; [cbn; auto|]. split; [left; eauto|]. repeat (split; auto).
Qed.
Lemma inv_storedirty : forall i (b : bool), lks t = Some (DIs (Some i)) ->
  Inv (T ++ [(t, AWr LRead true)]) (fwread g (Some i, b)) (upd lks t (Some DPub)) (upd Gs t (KMap i :: Gs t)).
Proof.
  intros i b0 Hl. assert (Hl' : lks t <> None) by congruence. pose proof (lk_only Hl') as Ho.
  assert (Hk : flk g = Some t) by now apply (i_lk _ _ _ _ HI).
  assert (Hd : fdirty g = Some i) by now apply (i_dis _ _ _ _ HI t).
  assert (Hw : forall m, ~ wr (fwread g (Some i, b0)) (upd lks t (Some DPub)) m) by (intros m [_ E]; apply (E t); apply upd_same).
  assert (Hmw : forall j, mapw T i j -> seen T j t) by (intros j (u & Hn); eapply holder_map; eauto; right; left; eauto).
  assert (Hen : forall key e j, In (key, e) (fmaps g i) -> init_of T (snd e) j -> seen T j t).
  { intros key e j _ (u & Hn). eapply holder_seen; eauto. right. right. right. eauto. }
  assert (H1 : Inv (T ++ [(t, AWr LRead true)]) (fwread g (Some i, b0)) (upd lks t (Some DPub)) Gs).
  { apply (inv_step T g lks Gs t _ _ _ HI); std HI.
    - split; cbn; auto; try discriminate. intros m _ _. (split; [apply Hw|]; split; [auto|acq]).
    - intros u. cbn. rewrite (i_lk _ _ _ _ HI). destruct (upd_cases lks t u (Some DPub)) as [[-> Eu]|[Hdd Eu]]; rewrite Eu; [easy|tauto].
    - intros u d. destruct (upd_cases lks t u (Some DPub)) as [[-> Eu]|[Hdd Eu]]; rewrite Eu; [discriminate|]. now rewrite Ho.
    - intros j u b x Hn Hdd Hb Ha Hor Hat. exfalso. apply Hat. split; [|cbn; auto]. assert (x = LRead) by (accs; auto). subst x.
      eapply read_atomic; eauto.
    - intros m Hm. now apply Hw in Hm.
    - cbn. intros m b Hb. inversion Hb; subst. right. pose proof (i_dlt _ _ _ _ HI _ Hd).
      split; [cbn; auto|]. split; [left; eauto|]. repeat (split; eauto). }
  apply inv_know; auto. cbn. split; [eapply i_dlt; eauto|]. split; [apply Hw|]. split.
  - intros j Hj. destruct (mapw_snoc _ _ _ _ _ Hj) as [Hj'|[-> E]]; [apply seen_app; auto|discriminate].
  - intros key e j He Hj. destruct (init_snoc _ _ _ _ _ Hj) as [Hj'|[-> E]]; [apply seen_app; eauto|discriminate].
Qed.
(** writes to the map m.dirty *)
Lemma inv_mapwrite : forall i l, lks t = Some (DIs (Some i)) -> (forall key e, In (key, e) l -> snd e < fnid g) ->
  Inv (T ++ [(t, AWr (LMap i) false)]) (fwmap g i l) lks Gs.
Proof.
  intros i l Hl He. assert (Hl' : lks t <> None) by congruence. assert (Hk : flk g = Some t) by now apply (i_lk _ _ _ _ HI).
  pose proof (holder_wr _ _ _ _ _ _ HI Hl) as Hwi. assert (Hwe : forall m, wr (fwmap g i l) lks m <-> wr g lks m) by (intros m; unfold wr; cbn; tauto).
  apply (inv_step T g lks Gs t _ _ _ HI); std HI.
  - split; cbn; auto; try discriminate. intros m _ Hm. rewrite Hwe. split; auto. assert (m <> i) by congruence. split; [apply upd_other; auto|].
    intros Ha. accs; congruence.
  - intros j u b x Hn Hd Hb Ha Hor Hat. assert (x = LMap i) by (accs; auto). subst x. eapply holder_map; eauto.
  - cbn. intros m key e. destruct (upd_cases (fmaps g) i m l) as [[-> E]|[Hd E]]; rewrite E; [apply He|]. apply (i_ent _ _ _ _ HI).
  - cbn. intros m Hm. assert (m = i) by (accs; auto). subst. eapply i_dlt; eauto. apply Hwi.
Qed.
(** a new cell is filled *)
Definition fwcell (g : fmem) n : fmem :=
  FMem (fheap g) (fnid g) (upd (fnst g) n (S (fnst g n))) (fmaps g) (fnmap g) (fread g) (fdirty g) (fmiss g) (flk g).
Lemma inv_cell : forall n v, In (KVal v) (Gs t) ->
  Inv (T ++ [(t, AWr (LCell n (fnst g n)) false)]) (fwcell g n) lks Gs /\ holds (T ++ [(t, AWr (LCell n (fnst g n)) false)]) (fwcell g n) lks t (KCell n (fnst g n) v).
Proof.
  intros n v Hv.
  assert (Hmono : forall m, fnst g m <= upd (fnst g) n (S (fnst g n)) m) by (intros m; destruct (upd_cases (fnst g) n m (S (fnst g n))) as [[-> E]|[Hd E]]; rewrite E; lia).
  split.
  - apply (inv_step T g lks Gs t _ _ _ HI); std HI.
    + split; cbn; auto; try discriminate.
      * intros m _ Hm. (split; [auto|]; split; [auto|acq]).
      * intros m s Hs E. inversion E; subst. lia.
    + intros i u b x Hi Hd Hb Ha Hor Hat. assert (x = LCell n (fnst g n)) by (accs; auto). subst x.
      pose proof (i_fcell _ _ _ _ HI _ _ _ _ _ Hi Hb). lia.
    + cbn. intros m s Hm. assert (m = n /\ s = fnst g n) as [-> ->] by (accs; auto). rewrite upd_same. lia.
  - cbn. rewrite upd_same. split; [lia|]. split.
    + intros i Hi. destruct (cellw_snoc _ _ _ _ _ _ Hi) as [(u & Hi')|[-> E]]; [|apply seen_here].
      pose proof (i_fcell _ _ _ _ HI _ _ _ n (fnst g n) Hi'). exfalso. assert (fnst g n < fnst g n); [|lia]. apply H. right. left. eauto.
    + destruct (i_facts _ _ _ _ HI _ _ Hv) as (i & Hg & Hs). exists i. split; [now apply given_app|now apply seen_app].
Qed.
(** entry.p is written by sync/atomic *)
Definition fwat (g : fmem) n x : fmem :=
  FMem (upd (fheap g) n x) (fnid g) (fnst g) (fmaps g) (fnmap g) (fread g) (fdirty g) (fmiss g) (flk g).
Lemma inv_entwrite : forall a n x, In (KEnt n) (Gs t) -> a = AWr (LEnt n) true \/ a = ACas (LEnt n) ->
  match x with EVal s v => holds T g lks t (KCell n s v) | _ => True end ->
  Inv (T ++ [(t, a)]) (fwat g n x) lks Gs.
Proof.
  intros a n x Hn Ha Hx. destruct (i_facts _ _ _ _ HI _ _ Hn) as [Hlt Hs].
  apply (inv_step T g lks Gs t _ _ _ HI); try (destruct Ha; subst; acq; fail); try (destruct Ha; subst; cbn; auto; easy); std HI.
  - split; cbn; auto.
    + intros m _ Hm. split; auto. split; auto. destruct Ha; subst; acq.
    + intros m _. destruct Ha; subst; discriminate.
    + intros m s _. destruct Ha; subst; discriminate.
  - intros i u b y Hi Hd Hb Hy Hor Hat. assert (y = LEnt n) by (destruct Ha; accs; auto). subst y.
    apply Hs. eapply plain_init; eauto. intros Hab. apply Hat. split; auto. destruct Ha; subst; cbn; auto.
  - intros m Hm. split; [now left|]. intros Hm'. destruct Ha; accs.
  - cbn. intros m b Hb. left. exists b. split; auto. destruct Ha; subst; acq.
  - cbn. intros m Hm. destruct Ha; accs; auto.
  - cbn. intros m s w. destruct (upd_cases (fheap g) n m x) as [[-> E]|[Hd E]]; rewrite E.
    + intros ->. right. split; auto. left. destruct Ha; subst; (split; [cbn; auto|]); [left; eauto|now right].
    + intros Hw. left. split; auto. destruct Ha; subst; acq; congruence.
Qed.
(** newEntry fills entry.p *)
Lemma inv_entnew : forall s v, lks t <> None -> holds T g lks t (KCell (fnid g) s v) ->
  Inv (T ++ [(t, AWr (LEnt (fnid g)) false)])
    (FMem (upd (fheap g) (fnid g) (EVal s v)) (S (fnid g)) (fnst g) (fmaps g) (fnmap g) (fread g) (fdirty g) (fmiss g) (flk g)) lks
    (upd Gs t (KEnt (fnid g) :: Gs t)).
Proof.
  intros s v Hl Hc. assert (Hk : flk g = Some t) by now apply (i_lk _ _ _ _ HI).
  apply inv_know.
  - apply (inv_step T g lks Gs t _ _ _ HI); std HI.
    + split; cbn; auto; try discriminate.
      * intros m _ Hm. (split; [auto|]; split; [auto|acq]).
      * intros m Hm E. inversion E. lia.
    + intros i u b x Hi Hd Hb Ha Hor Hat. assert (x = LEnt (fnid g)) by (accs; auto). subst x.
      pose proof (i_fent _ _ _ _ HI _ _ _ _ Hi Hb). lia.
    + cbn. intros m key e He. pose proof (i_ent _ _ _ _ HI _ _ _ He). lia.
    + cbn. intros m Hm. assert (m = fnid g) by (accs; auto). lia.
    + cbn. intros m s' w. destruct (upd_cases (fheap g) (fnid g) m (EVal s v)) as [[-> E]|[Hd E]]; rewrite E.
      * intros E'. inversion E'; subst. right. split; auto.
      * intros Hw. left. split; auto. acq. congruence.
  - cbn. split; [lia|]. intros i Hi. destruct (init_snoc _ _ _ _ _ Hi) as [(u & Hi')|[-> E]]; [|apply seen_here].
    exfalso. assert (fnid g < fnid g); [|lia]. eapply i_fent; eauto. right. left. eauto.
Qed.
(** A look at entry.p: what it finds is known. *)
Lemma loaded_known : forall n s v, In (KEnt n) (Gs t) -> fheap g n = EVal s v -> holds (T ++ [(t, ARd (LEnt n) true)]) g lks t (KCell n s v).
Proof.
  intros n s v Hn Hv. destruct (i_facts _ _ _ _ HI _ _ Hn) as [Hlt Hs].
  assert (Hal : forall i, along T n i -> seen (T ++ [(t, ARd (LEnt n) true)]) i t).
  { intros i [Hx|(j & Hj & Hh)].
    - apply hb_seen. eapply seenX_next; eauto; [cbn; auto|left; eauto].
    - apply seen_app. eapply seen_trans; eauto. }
  cbn. split; [eapply i_hlt; eauto|]. split.
  - intros i Hi. destruct (cellw_snoc _ _ _ _ _ _ Hi) as [Hi'|[-> E]]; [|discriminate]. apply Hal. eapply i_hcell; eauto.
  - destruct (i_hval _ _ _ _ HI _ _ _ Hv) as (i & Hg & Hi). exists i. split; [now apply given_app|auto].
Qed.
(** A look at m.read: the map it finds is known. *)
Lemma read_known : forall m (b : bool), fread g = (Some m, b) -> holds (T ++ [(t, ARd LRead true)]) g lks t (KMap m).
Proof.
  intros m b Hr. destruct (i_rlt _ _ _ _ HI _ _ Hr) as [Hlt Hw]. cbn. split; auto. split; auto.
  assert (Hal : forall i, seenX T LRead i -> seen (T ++ [(t, ARd LRead true)]) i t).
  { intros i Hx. apply hb_seen. eapply seenX_next; eauto; [cbn; auto|left; eauto]. }
  split.
  - intros i Hi. destruct (mapw_snoc _ _ _ _ _ Hi) as [Hi'|[-> E]]; [|discriminate]. apply Hal. eapply i_readw; eauto.
  - intros key e i He Hi. destruct (init_snoc _ _ _ _ _ Hi) as [Hi'|[-> E]]; [|discriminate]. apply Hal. eapply i_reade; eauto.
Qed.
End Events.

(** ** Every step of the program *)
Section Main.
Variables (geq : K -> K -> bool) (hashable : K -> bool).

Lemma in_gset : forall (l : list (K * entry K)) k e k' e', In (k', e') (gset geq l k e) -> e' = e \/ In (k', e') l.
Proof. intros l k e k' e' [E|Hin]; [left; now inversion E|]. right. now apply filter_In in Hin. Qed.
Lemma glook_in : forall (l : list (K * entry K)) k e, glook geq l k = Some e -> exists k', In (k', e) l.
Proof.
  intros l k e. unfold glook. destruct (filter (hit geq k) l) as [|[k' e'] r] eqn:E; [discriminate|]. intros Hs. inversion Hs; subst.
  exists k'. assert (In (k', e) (filter (hit geq k) l)) by (rewrite E; now left). now apply filter_In in H.
Qed.
Lemma ok_panic : forall T g lks Gs t, Inv T g lks Gs -> ok (lks t) (Gs t) (after_panic (K := K) t g).
Proof.
  intros T g lks Gs t Hi. unfold after_panic. destruct (lks t) as [d|] eqn:E.
  - rewrite (proj2 (i_lk _ _ _ _ Hi t)) by congruence. rewrite Nat.eqb_refl. apply ok_dead.
  - destruct (flk g) as [u|] eqn:Ek; [|apply ok_stop]. destruct (Nat.eqb_spec u t) as [->|]; [|apply ok_stop].
    exfalso. now apply (i_lk _ _ _ _ Hi t) in Ek.
Qed.
Lemma given_here : forall T g lks t a v, gives a v -> holds (T ++ [(t, a)]) g lks t (KVal v).
Proof. intros T g lks t a v Hg. exists (length T). split; [exists t, a; split; [apply nth_last|auto]|apply seen_here]. Qed.

Definition after (T : list ev) g lks Gs t (pr : prog) : Prop :=
  exists lks' Gs', Inv T g lks' Gs' /\ ok (lks' t) (Gs' t) pr /\ forall u, u <> t -> lks' u = lks u /\ Gs' u = Gs u.
Lemma after_same : forall T g lks Gs t pr, Inv T g lks Gs -> ok (lks t) (Gs t) pr -> after T g lks Gs t pr.
Proof. intros. exists lks, Gs. auto. Qed.
Lemma after_know : forall T g lks Gs t f pr, Inv T g lks Gs -> holds T g lks t f -> ok (lks t) (f :: Gs t) pr -> after T g lks Gs t pr.
Proof.
  intros T g lks Gs t f pr Hi Hf Hk. exists lks, (upd Gs t (f :: Gs t)). split; [now apply inv_know|]. rewrite upd_same. split; auto.
  intros u Hu. rewrite upd_other by auto. auto.
Qed.
Lemma after_lk : forall T g lks Gs t x pr, Inv T g (upd lks t x) Gs -> ok x (Gs t) pr -> after T g lks Gs t pr.
Proof.
  intros T g lks Gs t x pr Hi Hk. exists (upd lks t x), Gs. split; auto. rewrite upd_same. split; auto.
  intros u Hu. rewrite upd_other by auto. auto.
Qed.

Lemma step_after : forall T g lks Gs t pr l g' pr', Inv T g lks Gs -> ok (lks t) (Gs t) pr -> fstep1 geq hashable t g pr l g' pr' ->
  ~ In (ALab (LCall t OClear)) l -> after (T ++ map (fun a => (t, a)) l) g' lks Gs t pr'.
Proof.
  intros T g lks Gs t pr l g' pr' Hi Hk Hs Hc.
  destruct Hs; cbn [map]; inversion Hk; subst; clear Hk;
    try match goal with E : _ = lks t |- _ => symmetry in E; rename E into HE end;
    try match goal with E : lks t = Some ?d |- _ => assert (Hl : lks t <> None) by congruence end.
  - (* a call *)
    assert (Ho : o <> OClear) by (intros ->; apply Hc; now left).
    assert (H1 : Inv (T ++ [(t, ALab (LCall t o))]) g lks Gs) by (apply inv_label; auto; cbn; contradiction).
    exists lks, (upd Gs t (gives_call o ++ Gs t)). split; [|split].
    + apply inv_know_all; auto. intros f Hf. destruct o; cbn in Hf; try contradiction; try congruence; destruct Hf as [<-|[]]; apply given_here; reflexivity.
    + rewrite upd_same, HE. apply ok_code; auto. intros x Hx. apply in_or_app. now left.
    + intros u Hu. rewrite upd_other by auto. auto.
  - destruct (fread g) as [[m|] b] eqn:E; [|apply after_same; auto; now apply inv_loadread].
    eapply after_know; [apply inv_loadread; auto|eapply read_known; eauto|auto].
  - apply after_same; [apply inv_storeread; auto|]. now rewrite HE.
  - exists (upd lks t (Some DPub)), (upd Gs t (KMap i :: Gs t)). split; [now apply inv_storedirty|]. rewrite !upd_same. split; auto.
    intros u Hu. rewrite !upd_other by auto. auto.
  - match goal with J : In KClr _ |- _ => destruct (i_facts _ _ _ _ Hi _ _ J) end.
  - eapply after_lk; [now apply inv_lock|auto].
  - eapply after_lk; [apply inv_unlock; auto; congruence|auto].
  - eapply after_lk; [apply inv_getdirty; auto; congruence|auto].
  - eapply after_lk; [apply inv_nildirty; auto|auto].
  - eapply after_lk; [apply inv_makedirty; auto; congruence|auto].
  - apply after_same; [apply inv_field; auto|]. rewrite HE. auto.
  - apply after_same; [apply inv_setmisses; auto|]. now rewrite HE.
  - (* ILook *) destruct (glook geq (fpairs g m) key) as [e|] eqn:E; [|apply after_same; [now apply inv_mapread'|auto]].
    destruct m as [m|]; [|discriminate]. destruct (glook_in _ _ _ E) as (k' & Hin). cbn in Hin.
    apply (after_know _ _ _ _ _ (KEnt (snd e))); [now apply inv_mapread'|apply (readable_entries _ g lks Gs t m k' e); auto; now apply inv_mapread'|auto].
  - apply after_same; [apply inv_label; auto; cbn; contradiction|]. eapply ok_panic; eauto.
  - apply after_same; [|now rewrite HE]. apply inv_mapwrite; auto. intros k' e' Hin. apply in_gset in Hin. destruct Hin as [->|Hin].
    + apply (i_facts _ _ _ _ Hi t (KEnt (snd e))). auto.
    + eapply i_ent; eauto.
  - apply after_same; [apply inv_label; auto; cbn; contradiction|]. eapply ok_panic; eauto.
  - apply after_same; [|now rewrite HE]. apply inv_mapwrite; auto. intros k' e' Hin. apply filter_In in Hin. eapply i_ent; eauto. apply Hin.
  - rewrite app_nil_r. apply after_same; auto. now rewrite HE.
  - apply after_same; [now apply inv_mapread'|auto].
  - (* IIter *) exists lks, (upd Gs t (map (fun p : K * entry K => KEnt (snd (snd p))) l ++ Gs t)). split; [|split].
    + apply inv_know_all; [now apply inv_mapread'|]. intros f Hf. apply in_map_iff in Hf. destruct Hf as ([k' e] & <- & Hin).
      apply (Permutation_in _ H) in Hin. destruct m as [m|]; [|contradiction]. cbn in Hin |- *.
      eapply (readable_entries _ g lks Gs t m k' e); eauto. now apply inv_mapread.
    + rewrite upd_same. auto.
    + intros u Hu. rewrite upd_other by auto. auto.
  - apply after_same; [now apply inv_mapread'|auto].
  - (* ILoadP *) unfold fval. destruct (fheap g (snd e)) as [| |s v] eqn:E; try solve [apply after_same; [now apply inv_entread|auto]].
    apply (after_know _ _ _ _ _ (KCell (snd e) s v)); [now apply inv_entread|now apply (loaded_known T g lks Gs)|auto].
  - (* IStoreP *) destruct (inv_cell T g lks Gs t Hi (snd e) v) as [J1 J2]; auto.
    assert (J3 : Inv ((T ++ [(t, AWr (LCell (snd e) (fnst g (snd e))) false)]) ++ [(t, AWr (LEnt (snd e)) true)])
      (fwat (fwcell g (snd e)) (snd e) (EVal (fnst g (snd e)) v)) lks Gs) by (apply inv_entwrite; auto).
    rewrite <- app_assoc in J3. apply after_same; auto.
  - (* ICas succeeds *) destruct n.
    + apply after_same; auto. apply (inv_entwrite T g lks Gs t Hi (ACas (LEnt (snd e))) (snd e) ENil); auto.
    + apply after_same; auto. apply (inv_entwrite T g lks Gs t Hi (ACas (LEnt (snd e))) (snd e) EExp); auto.
    + destruct (inv_cell T g lks Gs t Hi (snd e) v) as [J1 J2]; auto.
      assert (J3 : Inv ((T ++ [(t, AWr (LCell (snd e) (fnst g (snd e))) false)]) ++ [(t, ACas (LEnt (snd e)))])
        (fwat (fwcell g (snd e)) (snd e) (EVal (fnst g (snd e)) v)) lks Gs) by (apply inv_entwrite; auto).
      rewrite <- app_assoc in J3. apply after_same; auto.
  - apply after_same; [now apply inv_entread|auto].
  - (* INewEntry *) destruct (inv_cell T g lks Gs t Hi (fnid g) v) as [J1 J2]; auto.
    pose proof (inv_entnew _ _ _ _ t J1 (fnst g (fnid g)) v Hl J2) as J3. rewrite <- app_assoc in J3.
    exists lks, (upd Gs t (KEnt (fnid g) :: Gs t)). split; [exact J3|]. rewrite upd_same, HE. split; auto.
    intros u Hu. rewrite upd_other by auto. auto.
  - (* IDeref *) eapply after_know; [eapply inv_deref; eauto| |eauto].
    match goal with J : In (KCell _ _ _) _ |- _ => destruct (i_facts _ _ _ _ Hi _ _ J) as (_ & _ & i & Hg & Hs) end.
    exists i. split; [now apply given_app|now apply seen_app].
  - (* ICompute *) eapply after_know with (f := KVal v); [apply inv_label; auto|apply given_here; reflexivity|auto].
    cbn. intros w. destruct p; cbn; try contradiction. now intros <-.
  - apply after_same; [apply inv_label; auto|eapply ok_panic; eauto].
    cbn. intros w. destruct p; cbn; try contradiction. now intros <-.
  - apply after_same; [apply inv_label; auto|auto]. cbn. now intros w <-.
  - apply after_same; [apply inv_label; auto|eapply ok_panic; eauto]. cbn. now intros w <-.
  - apply after_same; [apply inv_label; auto|rewrite HE; apply ok_stop]. cbn. destruct r as [[x|] b]; [now intros w <-|contradiction].
Qed.
Definition FI T (s : fst_ K V) : Prop := exists lks Gs, Inv T (fm s) lks Gs /\ forall t, ok (lks t) (Gs t) (fpr s t).
Lemma FI_init : forall s : fst_ K V, finit s -> FI [] s.
Proof.
  intros [g p] [Hg Hp]. cbn in *. subst. exists (fun _ => None), (fun _ => []). split; [|intros t; rewrite Hp; apply ok_stop].
  assert (Hn : forall i (x : ev), nth_error (@nil ev) i <> Some x) by (intros [|i] x; discriminate).
  split; cbn; try (intros; exfalso; eapply Hn; eauto; fail); try discriminate; try contradiction.
  - split; congruence.
  - apply race_free_nil.
Qed.
(** Clear is not called *)
Definition no_clear T : Prop := forall u t, ~ In (u, ALab (LCall t OClear)) T.
Lemma FI_exec : forall tr s, exec finit (fstep geq hashable) tr s -> no_clear (concat tr) -> FI (concat tr) s.
Proof.
  intros tr s Hx. revert Hx. apply (exec_ind_inv _ _ (fun tr s => no_clear (concat tr) -> FI (concat tr) s)).
  - intros s0 Hi _. now apply FI_init.
  - clear. intros tr s l s' _ IH Hst Hc. rewrite concat_app in *. cbn in *. rewrite app_nil_r in *.
    destruct IH as (lks & Gs & Hi & Hk). { intros u t Hin. apply (Hc u t). apply in_or_app. now left. }
    inversion Hst as [g p t l0 g' p' H1]; subst. cbn in *.
    destruct (step_after _ _ _ _ _ _ _ _ _ Hi (Hk t) H1) as (lks' & Gs' & Hi' & Hk' & Ho).
    { intros Hin. apply (Hc t t). apply in_or_app. right. apply in_map_iff. eauto. }
    exists lks', Gs'. cbn. split; auto. intros u. destruct (upd_cases p t u p') as [[-> E]|[Hd E]]; rewrite E; auto.
    destruct (Ho u Hd) as [-> ->]. auto.
Qed.
End Main.
End Inv.
