(** * Proofs for C78: SharedMap used by any number of goroutines *)
From Coq Require Import List Bool Arith Lia.
From stdpp Require Import gmap.
From Verif Require Import Trans MapConcSpec MapConcModel MapConcInv MapConcHind MapConcSim MapConcProofs SharedConcModel.

Section Proofs.
Context {K : Type} `{Countable K} {V : Type}.
Variable (N : nat) (idx : K -> nat).
Hypothesis (idx_lt : forall k, idx k < N).
Notation amap := (gmap K V).
Notation op := (op K V).
Notation label := (label K V).
Notation ctl := (ctl K V).
Notation ast := (ast K V).
Notation sst := (sst K V).
Notation gctl := (gctl K V).

(** shard i's part of the contents *)
Definition pr (i : nat) (A Ai : amap) : Prop := forall k, Ai !! k = if idx k =? i then A !! k else None.
Definition sub (i : nat) (Qi Q : list amap) : Prop := forall Ai, In Ai Qi -> exists A, In A Q /\ pr i A Ai.

(** What a goroutine does in the shards, ci i in shard i, and what it does in the whole, c *)
Definition gc (x : gctl) (ci : nat -> ctl) (c : ctl) : Prop :=
  match x with
  | GIdle => (forall i, ci i = AIdle) /\ c = AIdle
  | GOne o => exists k, okey o = Some k /\ (forall j, j <> idx k -> ci j = AIdle) /\
      ((exists Qi Q, ci (idx k) = APend o Qi /\ c = APend o Q /\ sub (idx k) Qi Q) \/ (exists r, ci (idx k) = ADone o r /\ c = ADone o r) \/ (ci (idx k) = AIdle /\ c = AIdle))
  | GTop i => (forall j, ci j = AIdle) /\ exists Q vis, c = ARng Q vis false /\
      (forall k, In k (map fst vis) -> idx k < i) /\ (forall k, idx k < i -> ~ In k (map fst vis) -> absent_in Q k)
  | GIn i b => (forall j, j <> i -> ci j = AIdle) /\ exists Qi vi Q v0,
      ci i = ARng Qi vi (negb b) /\ c = ARng Q (v0 ++ vi) (negb b) /\ sub i Qi Q /\
      (forall k, In k (map fst v0) -> idx k < i) /\ (forall k, In k (map fst vi) -> idx k = i) /\
      (forall k, idx k < i -> ~ In k (map fst v0) -> absent_in Q k)
  | GEnd => (forall j, ci j = AIdle) /\ exists Q vis stop, c = ARng Q vis stop /\
      (stop = true \/ forall k, ~ In k (map fst vis) -> absent_in Q k)
  | GClr _ _ => False
  end.
Definition G (aa : nat -> ast) (g : nat -> gctl) (a : ast) : Prop :=
  (forall i, pr i (cur a) (cur (aa i))) /\ forall t, gc (g t) (fun i => ctls (aa i) t) (ctls a t).

Lemma gc_ext : forall x (ci ci' : nat -> ctl) c, (forall i, ci' i = ci i) -> gc x ci c -> gc x ci' c.
Proof.
  intros [] ci ci' c E; cbn; intros; repeat match goal with
  | Hx : exists _, _ |- _ => destruct Hx | Hx : _ /\ _ |- _ => destruct Hx | Hx : _ \/ _ |- _ => destruct Hx end; subst.
  - split; auto. intros; now rewrite E.
  - eexists. split; [eauto|]. split; [intros; rewrite E; auto|]. left. rewrite E. eauto 6.
  - eexists. split; [eauto|]. split; [intros; rewrite E; auto|]. right. left. rewrite E. eauto 6.
  - eexists. split; [eauto|]. split; [intros; rewrite E; auto|]. right. right. rewrite E. auto.
  - split; [intros; rewrite E; auto|]. eauto 8.
  - split; [intros; rewrite E; auto|]. rewrite E. eauto 12.
  - split; [intros; rewrite E; auto|]. eauto 8.
  - split; [intros; rewrite E; auto|]. eauto 8.
  - contradiction.
Qed.

(** a step of goroutine t in shard i that leaves the contents alone *)
Lemma G_at : forall aa g a i t x' c' y, G aa g a ->
  gc y (fun j => if i =? j then x' else ctls (aa j) t) c' ->
  G (upd aa i (AS (cur (aa i)) (upd (ctls (aa i)) t x'))) (upd g t y) (AS (cur a) (upd (ctls a) t c')).
Proof.
  intros aa g a i t x' c' y [G1 G2] Hc. split; cbn [cur ctls].
  - intros j. destruct (Nat.eq_dec i j) as [->|Ne]; [rewrite upd_same|rewrite upd_other by auto]; cbn [cur]; apply G1.
  - intros u. destruct (Nat.eq_dec t u) as [->|Nu].
    + rewrite !upd_same. eapply gc_ext; [|exact Hc]. intros j. cbn beta. destruct (Nat.eqb_spec i j) as [->|Ne].
      * rewrite upd_same. cbn [ctls]. now rewrite upd_same.
      * now rewrite upd_other by auto.
    + rewrite !(upd_other _ t u) by auto. eapply gc_ext; [|exact (G2 u)]. intros j. cbn beta. destruct (Nat.eq_dec i j) as [->|Ne].
      * rewrite upd_same. cbn [ctls]. now rewrite upd_other by auto.
      * now rewrite upd_other by auto.
Qed.
(** the goroutine changes only what it does in the whole *)
Lemma G_own : forall aa g a t c' y, G aa g a -> gc y (fun j => ctls (aa j) t) c' ->
  G aa (upd g t y) (AS (cur a) (upd (ctls a) t c')).
Proof.
  intros aa g a t c' y [G1 G2] Hc. split; cbn [cur ctls]; auto. intros u. destruct (Nat.eq_dec t u) as [->|Nu].
  - now rewrite !upd_same.
  - rewrite !(upd_other _ t u) by auto. apply G2.
Qed.

Lemma sub_nil : forall i A Ai, pr i A Ai -> sub i [Ai] [A].
Proof. intros i A Ai Hp B [<-|[]]. exists A. split; [now left|auto]. Qed.
Lemma sub_cons : forall i A Ai Qi Q, pr i A Ai -> sub i Qi Q -> sub i (Ai :: Qi) (A :: Q).
Proof. intros i A Ai Qi Q Hp Hs B [<-|HB]; [exists A; split; [now left|auto]|]. destruct (Hs B HB) as (C & HC & HP). exists C. split; [now right|auto]. Qed.
Lemma sub_more : forall i A Qi Q, sub i Qi Q -> sub i Qi (A :: Q).
Proof. intros i A Qi Q Hs B HB. destruct (Hs B HB) as (C & HC & HP). exists C. split; [now right|auto]. Qed.
Lemma absent_more : forall (A : amap) Q k, absent_in Q k -> absent_in (A :: Q) k.
Proof. intros A Q k (B & HB & E). exists B. split; [now right|auto]. Qed.
Lemma pr_in : forall i A Ai k v, pr i A Ai -> Ai !! k = Some v -> idx k = i /\ A !! k = Some v.
Proof. intros i A Ai k v Hp E. rewrite Hp in E. destruct (Nat.eqb_spec (idx k) i); [auto|discriminate]. Qed.
Lemma pr_out : forall A Ai k, pr (idx k) A Ai -> A !! k = Ai !! k.
Proof. intros A Ai k Hp. rewrite Hp. now rewrite Nat.eqb_refl. Qed.
Lemma sub_absent : forall k Qi Q, sub (idx k) Qi Q -> absent_in Qi k -> absent_in Q k.
Proof. intros k Qi Q Hs (Ai & Hi & E). destruct (Hs Ai Hi) as (A & HA & Hp). exists A. split; auto. now rewrite (pr_out _ _ _ Hp). Qed.

(** the contents change in shard i: everyone sees it *)
Lemma gc_see : forall x (ci : nat -> ctl) c i A' Ai', gc x ci c -> pr i A' Ai' ->
  gc x (fun j => if i =? j then see Ai' (ci j) else ci j) (see A' c).
Proof.
  intros [|o|n|n b| |n b] ci c i A' Ai' Hg Hp; cbn in Hg.
  - destruct Hg as [Hg ->]. split; auto. intros j. rewrite !Hg. now destruct (i =? j).
  - destruct Hg as (k & Hk & Ho & Hc). exists k. split; auto. split.
    { intros j Nj. rewrite (Ho j Nj). now destruct (i =? j). }
    destruct Hc as [(Qi & Q & E1 & E2 & Hs)|[(r & E1 & E2)|[E1 E2]]].
    + left. rewrite E1, E2. cbn [see]. destruct (Nat.eqb_spec i (idx k)) as [->|Ne]; cbn [see]; eexists _, _; (split; [reflexivity|]; split; [reflexivity|]).
      * now apply sub_cons.
      * now apply sub_more.
    + right. left. exists r. rewrite E1, E2. split; auto. now destruct (i =? idx k).
    + right. right. rewrite E1, E2. split; auto. now destruct (i =? idx k).
  - destruct Hg as (Ha & Q & vis & -> & H1 & H2). split.
    { intros j. rewrite Ha. now destruct (i =? j). }
    cbn [see]. eexists _, _. split; [reflexivity|]. split; auto. intros. apply absent_more. auto.
  - destruct Hg as (Ha & Qi & vi & Q & v0 & E1 & -> & Hs & H1 & H2 & H3). split.
    { intros j Nj. rewrite Ha by auto. now destruct (i =? j). }
    rewrite E1. destruct (Nat.eqb_spec i n) as [->|Ne]; cbn [see]; eexists _, vi, _, v0; (split; [reflexivity|]; split; [reflexivity|]); (split; [|split; [auto|split; [auto|]]]); auto using sub_cons, sub_more, absent_more.
  - destruct Hg as (Ha & Q & vis & stop & -> & Hd). split.
    { intros j. rewrite Ha. now destruct (i =? j). }
    cbn [see]. eexists _, _, _. split; [reflexivity|]. destruct Hd as [->|Hd]; auto using absent_more.
  - destruct Hg.
Qed.

(** an operation on key k: what happens in the shard happens in the whole *)
Lemma effect_whole : forall o k Qi Q Ai Ai' A r, okey o = Some k -> sub (idx k) Qi Q -> pr (idx k) A Ai -> effect o Qi Ai Ai' r ->
  exists A', effect o Q A A' r /\ pr (idx k) A' Ai' /\ forall j Aj, j <> idx k -> pr j A Aj -> pr j A' Aj.
Proof.
  intros o k Qi Q Ai Ai' A r Hk Hs Hp He.
  assert (Pi : forall v, pr (idx k) (<[k := v]> A) (<[k := v]> Ai)).
  { intros v k'. destruct (decide (k = k')) as [<-|Nk]; [rewrite !lookup_insert; now rewrite Nat.eqb_refl|]. rewrite !lookup_insert_ne by auto. apply Hp. }
  assert (Pj : forall v j Aj, j <> idx k -> pr j A Aj -> pr j (<[k := v]> A) Aj).
  { intros v j Aj Nj Hj k'. rewrite Hj. destruct (Nat.eqb_spec (idx k') j) as [E|]; auto. rewrite lookup_insert_ne; auto. intros ->. auto. }
  pose proof (pr_out _ _ _ Hp) as Ek.
  destruct o; cbn in Hk; inversion Hk; subst; cbn [effect] in *; rewrite ?Ek.
  - destruct He as [-> ->]. exists A. auto.
  - destruct He as [-> ->]. exists (<[k := v]> A). auto.
  - destruct (Ai !! k); destruct He as [-> ->]; [exists A; auto|exists (<[k := v]> A); auto].
  - destruct (Ai !! k); [destruct He as [-> ->]; exists A; auto|]. destruct He as (v & Fv & -> & ->). exists (<[k := v]> A). split; eauto.
  - destruct (Ai !! k).
    + destruct He as (A0 & w & v' & H0 & E0 & Gv & -> & ->). destruct (Hs A0 H0) as (B & HB & HP). exists (<[k := v']> A).
      split; [|auto]. exists B, w, v'. rewrite (pr_out _ _ _ HP). auto.
    + destruct He as [-> ->]. exists A. auto.
  - destruct He as [-> ->]. exists (delete k A). split; [auto|]. split.
    + intros k'. destruct (decide (k = k')) as [<-|Nk]; [rewrite !lookup_delete; now destruct (_ =? _)|]. rewrite !lookup_delete_ne by auto. apply Hp.
    + intros j Aj Nj Hj k'. rewrite Hj. destruct (Nat.eqb_spec (idx k') j) as [E|]; auto. rewrite lookup_delete_ne; auto. intros ->. auto.
Qed.

(** an internal step of shard i *)
Lemma tau_whole : forall aa g a i ai', G aa g a -> hstep (aa i) LTau ai' -> exists a', hstep a LTau a' /\ G (upd aa i ai') g a'.
Proof.
  intros aa g a i ai' HG Hs. inversion Hs; subst.
  match goal with Hx : astep _ _ _ |- _ => rename Hx into Ha end. inversion Ha; subst.
  - destruct HG as [G1 G2]. match goal with Hx : AS ?A ?c = aa i |- _ => rename A into Ai, c into ci; rename Hx into Ei end.
    symmetry in Ei. pose proof (G2 t) as Gt. pose proof (G1 i) as Gi. rewrite Ei in Gi. cbn [cur] in Gi.
    assert (Eci : ctls (aa i) t = APend o Q) by (rewrite Ei; auto).
    destruct (g t) as [|o'|n|n b| |n b] eqn:Eg; cbn in Gt.
    + destruct Gt as [Gt _]. rewrite Gt in Eci. discriminate.
    + destruct Gt as (k & Hk & Ho & Hc). destruct (Nat.eq_dec i (idx k)) as [->|Ne]; [|rewrite Ho in Eci by auto; discriminate].
      rewrite Eci in Hc. destruct Hc as [(Qi & Q' & E1 & E2 & Hsub)|[(r' & E1 & _)|[E1 _]]]; [|discriminate|discriminate]. inversion E1; subst o' Qi.
      match goal with Hx : effect _ _ _ _ _ |- _ => destruct (effect_whole o k Q Q' Ai A' (cur a) r Hk Hsub Gi Hx) as (B & He & Hp & Hj) end.
      exists (AS B (upd (fun u => see B (ctls a u)) t (ADone o r))). split.
      { destruct a as [Aa ca]. cbn in *. apply HA. eapply ALin; eauto. }
      split; cbn [cur ctls].
      * intros j. destruct (Nat.eq_dec (idx k) j) as [<-|Nj]; [rewrite upd_same; exact Hp|rewrite upd_other by auto; apply Hj; auto].
      * intros u. destruct (Nat.eq_dec t u) as [<-|Nu].
        -- rewrite Eg, upd_same. exists k. split; auto. split.
           ++ intros j Nj. rewrite upd_other by auto. now apply Ho.
           ++ right. left. exists r. rewrite upd_same. cbn [ctls]. now rewrite upd_same.
        -- rewrite upd_other by auto. eapply gc_ext; [|exact (gc_see _ _ _ (idx k) B A' (G2 u) Hp)]. intros j. cbn beta.
           destruct (Nat.eqb_spec (idx k) j) as [<-|Nj]; [|now rewrite upd_other by auto]. rewrite upd_same. cbn [ctls]. rewrite upd_other by auto. now rewrite Ei.
    + destruct Gt as [Gt _]. rewrite Gt in Eci. discriminate.
    + destruct Gt as (Ho & Qi & vi & Q' & v0 & E1 & _). destruct (Nat.eq_dec i n) as [->|Ne]; [rewrite E1 in Eci; discriminate|rewrite Ho in Eci by auto; discriminate].
    + destruct Gt as [Gt _]. rewrite Gt in Eci. discriminate.
    + destruct Gt.
  - exists a. split; [apply HA, ATau|]. destruct HG as [G1 G2]. split.
    + intros j. destruct (Nat.eq_dec i j) as [->|Ne]; [rewrite upd_same|rewrite upd_other by auto]; apply G1.
    + intros u. eapply gc_ext; [|exact (G2 u)]. intros j. cbn beta. destruct (Nat.eq_dec i j) as [->|Ne]; [now rewrite upd_same|now rewrite upd_other by auto].
Qed.

Lemma comp_ok_whole : forall o k Qi Q old r, okey o = Some k -> sub (idx k) Qi Q -> comp_ok o Qi old r -> comp_ok o Q old r.
Proof.
  intros o k Qi Q old r Hk Hs Hc. destruct o; cbn in *; try contradiction; inversion Hk; subst.
  - destruct Hc as (-> & Ha & Hf). split; auto. split; auto. eapply sub_absent; eauto.
  - destruct Hc as (A0 & w & H0 & E0 & -> & Hg). destruct (Hs A0 H0) as (B & HB & HP). exists B, w. rewrite (pr_out _ _ _ HP). auto.
Qed.
Lemma ro_whole : forall o k Qi Q A0 r, okey o = Some k -> sub (idx k) Qi Q -> In A0 Qi -> ro o A0 r -> exists B, In B Q /\ ro o B r.
Proof.
  intros o k Qi Q A0 r Hk Hs Hi Hr. destruct (Hs A0 Hi) as (B & HB & HP). exists B. split; auto. pose proof (pr_out _ _ _ HP) as E.
  destruct o; cbn in *; try contradiction; inversion Hk; subst; rewrite E; auto.
Qed.

Lemma G_ext : forall aa g g' a, (forall t, g' t = g t) -> G aa g a -> G aa g' a.
Proof. intros aa g g' a E [G1 G2]. split; auto. intros t. rewrite E. apply G2. Qed.
Lemma upd_self : forall (g : nat -> gctl) t y u, g t = y -> upd g t y u = g u.
Proof. intros g t y u E. destruct (Nat.eq_dec t u) as [<-|Nu]; [now rewrite upd_same|now rewrite upd_other by auto]. Qed.

(** the goroutine that makes a step *)
Definition byt (t : nat) (l : label) : Prop :=
  match l with LCall u _ | LRet u _ _ | LComp u _ _ | LVisit u _ _ _ | LCrash u => u = t | LTau => True end.
Lemma shstep_byt : forall t s l s', shstep (K := K) (V := V) t s l s' -> byt t l.
Proof. intros t s l s' (g' & p' & T & _). destruct T; cbn; auto. Qed.
Lemma shstep_cstep : forall t s l s', shstep (K := K) (V := V) t s l s' -> cstep s l s'.
Proof. intros t [g p] l s' (g' & p' & T & ->). now constructor. Qed.

Ltac shard Ei := match goal with Hx : AS ?A ?c = ?x |- _ => symmetry in Hx; rename Hx into Ei end.

(** a step in the shard of the key *)
Lemma one_whole : forall aa g a t o k l ai', G aa g a -> g t = GOne o -> okey o = Some k -> hstep (aa (idx k)) l ai' -> byt t l ->
  (forall o', l <> LCall t o') ->
  forall y, (if over l then y = GIdle \/ y = GOne o else y = GOne o) -> exists a', hstep a l a' /\ G (upd aa (idx k) ai') (upd g t y) a'.
Proof.
  intros aa g a t o k l ai' HG Eg Hk Hs Hb Nc y Hy. pose proof HG as [G1 G2]. pose proof (G2 t) as Gt. rewrite Eg in Gt. cbn in Gt.
  destruct Gt as (k' & Hk' & Ho & Hc). rewrite Hk in Hk'. inversion Hk'; subst k'.
  assert (Gy : over l = true -> forall ci : nat -> ctl, (forall j, ci j = AIdle) -> gc y ci AIdle).
  { intros Ov ci Hci. rewrite Ov in Hy. destruct Hy as [->| ->]; cbn; auto. exists k. split; auto. }
  destruct l as [u o'|u o' r|u old r|u kv v r|u|]; cbn in Hb; try subst u.
  - now destruct (Nc o').
  - cbn [over] in *. inversion Hs as [a1 l1 a2 Ha|A c u o1 Q A0 r1 Ec Hi Hr]; subst.
    + inversion Ha; subst; shard Ei.
      * rewrite Ei in Hc. cbn [ctls] in Hc. destruct Hc as [(Qi & Q & E1 & _)|[(r' & E1 & E2)|[E1 _]]]; [congruence| |congruence].
        assert (Ex : o' = o /\ r' = r) by (split; congruence). destruct Ex as [-> ->].
        exists (AS (cur a) (upd (ctls a) t AIdle)). split; [destruct a; cbn in *; apply HA, ARet; auto|].
        replace A with (cur (aa (idx k))) by now rewrite Ei. replace c with (ctls (aa (idx k))) by now rewrite Ei. apply G_at; auto.
        apply Gy; auto. intros j. destruct (Nat.eqb_spec (idx k) j); auto.
      * rewrite Ei in Hc. cbn [ctls] in Hc. destruct Hc as [(Qi & Q' & E1 & _)|[(r' & E1 & _)|[E1 _]]]; congruence.
    + shard Ei. rewrite Ei in Hc. cbn [ctls] in Hc. destruct Hc as [(Qi & Q' & E1 & E2 & Hsub)|[(r' & E1 & _)|[E1 _]]]; [|congruence|congruence].
      assert (Ex : o' = o /\ Qi = Q) by (split; congruence). destruct Ex as [-> ->].
      destruct (ro_whole o k Q Q' A0 r Hk Hsub Hi Hr) as (B & HB & HrB).
      exists (AS (cur a) (upd (ctls a) t AIdle)). split; [destruct a; cbn in *; eapply HLate; eauto|].
      replace A with (cur (aa (idx k))) by now rewrite Ei. replace c with (ctls (aa (idx k))) by now rewrite Ei. apply G_at; auto.
      apply Gy; auto. intros j. destruct (Nat.eqb_spec (idx k) j); auto.
  - inversion Hs as [a1 l1 a2 Ha|]; subst. inversion Ha; subst; shard Ei; rewrite Ei in Hc; cbn [ctls] in Hc;
      (destruct Hc as [(Qi & Q' & E1 & E2 & Hsub)|[(r' & E1 & _)|[E1 _]]]; [|congruence|congruence]);
      match goal with E1 : ?f t = APend o Qi, Hx : ?f t = APend ?o1 ?Q1 |- _ => assert (Ex : o1 = o /\ Qi = Q1) by (split; congruence); destruct Ex as [-> ->] end; cbn [over] in *.
    + exists a. split; [destruct a; cbn in *; eapply HA, AComp; eauto using comp_ok_whole|]. subst y. eapply G_ext; [intros u; now apply upd_self|].
      rewrite <- Ei. split.
      * intros j. destruct (Nat.eq_dec (idx k) j) as [->|Ne]; [rewrite upd_same|rewrite upd_other by auto]; apply G1.
      * intros u. eapply gc_ext; [|exact (G2 u)]. intros j. cbn beta. destruct (Nat.eq_dec (idx k) j) as [->|Ne]; [now rewrite upd_same|now rewrite upd_other by auto].
    + exists (AS (cur a) (upd (ctls a) t AIdle)). split; [destruct a; cbn in *; eapply HA, ACompPanic; eauto using comp_ok_whole|].
      replace A with (cur (aa (idx k))) by now rewrite Ei. replace c with (ctls (aa (idx k))) by now rewrite Ei. apply G_at; auto.
      apply Gy; auto. intros j. destruct (Nat.eqb_spec (idx k) j); auto.
  - inversion Hs as [a1 l1 a2 Ha|]; subst. inversion Ha; subst; shard Ei; rewrite Ei in Hc; cbn [ctls] in Hc; destruct Hc as [(Qi & Q' & E1 & _)|[(r' & E1 & _)|[E1 _]]]; congruence.
  - inversion Hs as [a1 l1 a2 Ha|]; subst. inversion Ha.
  - destruct (tau_whole aa g a (idx k) ai' HG Hs) as (a' & Hs' & HG'). exists a'. split; auto. cbn in Hy. subst y. eapply G_ext; [|exact HG']. intros u. now apply upd_self.
Qed.

(** A Range knows the present contents. *)
Definition live (a : ast) : Prop := forall t Q vis s, ctls a t = ARng Q vis s -> In (cur a) Q.
Lemma live_step : forall a l a', live a -> hstep a l a' -> live a'.
Proof.
  intros a l a' L Hs. assert (U : forall A (c : nat -> ctl) t x, (forall u Q vis s, c u = ARng Q vis s -> In A Q) ->
    (forall Q vis s, x = ARng Q vis s -> In A Q) -> live (AS A (upd c t x))).
  { intros A c t x Hc Hx u Q vis s. cbn. destruct (Nat.eq_dec t u) as [<-|Nu]; [rewrite upd_same; apply Hx|rewrite upd_other by auto; apply Hc]. }
  destruct Hs as [a l a' Ha|A c t o Q A0 r].
  - destruct Ha; auto; apply U; auto; try (intros; discriminate).
    + intros Q vis s E. destruct o; cbn in E; inversion E; subst. now left.
    + intros u Q0 vis s E. destruct (c u); cbn in E; inversion E; subst. now left.
    + intros Q0 vis0 s E. inversion E; subst. eapply L; eauto.
  - apply U; auto. intros; discriminate.
Qed.
Definition Rel (S : sst) (a : ast) : Prop := live a /\ exists aa, (forall i, R (shs S i) (aa i)) /\ G aa (gs S) a.

Lemma R_upd : forall sh aa i s' ai', (forall j, R (K := K) (V := V) (sh j) (aa j)) -> R s' ai' -> forall j, R (upd sh i s' j) (upd aa i ai' j).
Proof. intros sh aa i s' ai' HR HR' j. destruct (Nat.eq_dec i j) as [->|Ne]; [now rewrite !upd_same|rewrite !upd_other by auto; auto]. Qed.


Lemma G_tau : forall aa g a i t x' y, G aa g a -> gc y (fun j => if i =? j then x' else ctls (aa j) t) (ctls a t) ->
  G (upd aa i (AS (cur (aa i)) (upd (ctls (aa i)) t x'))) (upd g t y) a.
Proof.
  intros aa g a i t x' y HG Hc. pose proof (G_at aa g a i t x' _ y HG Hc) as [G1 G2]. split; [exact G1|]. intros u. specialize (G2 u). cbn [ctls] in G2.
  replace (ctls a u) with (upd (ctls a) t (ctls a t) u); auto. destruct (Nat.eq_dec t u) as [<-|Nu]; [now rewrite upd_same|now rewrite upd_other by auto].
Qed.
Lemma G_tau_own : forall aa g a t y, G aa g a -> gc y (fun j => ctls (aa j) t) (ctls a t) -> G aa (upd g t y) a.
Proof.
  intros aa g a t y [G1 G2] Hc. split; auto. intros u. destruct (Nat.eq_dec t u) as [<-|Nu]; [now rewrite upd_same|rewrite upd_other by auto; apply G2].
Qed.

Lemma sim_sstep : forall S a l S', Rel S a -> sstep N idx S l S' -> exists a', hstep a l a' /\ Rel S' a'.
Proof.
  intros S a l S' (L & aa & HR & HG) St.
  assert (W : forall a', hstep a l a' -> (exists aa', (forall i, R (shs S' i) (aa' i)) /\ G aa' (gs S') a') -> exists a', hstep a l a' /\ Rel S' a').
  { intros a' Hs Hx. exists a'. split; auto. split; auto. eapply live_step; eauto. }
  inversion St; subst; cbn [shs gs] in *;
    try (match goal with Hx : shstep _ (_ ?i0) _ _ |- _ =>
      destruct (sim_step _ _ _ _ (HR i0) (shstep_cstep _ _ _ _ Hx)) as (ai' & Hs & HR'); pose proof (shstep_byt _ _ _ _ Hx) as Hb end);
    pose proof HG as [G1 G2];
    match goal with Hx : @eq gctl (_ ?t0) _ |- _ => pose proof (G2 t0) as Gt; rewrite Hx in Gt; cbn in Gt; rename Hx into Eg end.
  - (* call *)
    destruct Gt as [Gi Gc]. inversion Hs as [a1 l1 a2 Ha|]; subst. inversion Ha; subst. shard Ei.
    apply (W (AS (cur a) (upd (ctls a) t (called o (cur a))))); [destruct a; cbn in *; apply HA, ACall; auto|].
    exists (upd aa (idx k) (AS A (upd c t (called o A)))). split; [now apply R_upd|].
    replace A with (cur (aa (idx k))) by now rewrite Ei. replace c with (ctls (aa (idx k))) by now rewrite Ei. apply G_at; auto.
    exists k. split; auto. split; [intros j Nj; destruct (Nat.eqb_spec (idx k) j); [congruence|auto]|]. left. rewrite Nat.eqb_refl.
    destruct o; cbn in *; try discriminate; eexists _, _; (split; [reflexivity|]; split; [reflexivity|]); apply sub_nil, G1.
  - (* a step of an operation on one key *)
    assert (Nc : forall o', l <> LCall t o').
    { intros o' ->. match goal with Hx : shstep t _ _ _ |- _ => destruct Hx as (g1 & p1 & T & _) end. inversion T; subst. congruence. }
    match goal with Hx : okey o = Some k |- _ => destruct (one_whole aa g a t o k l ai' HG Eg Hx Hs Hb Nc (after t o l s')) as (a' & Hs' & HG') end.
    { unfold after. destruct (over l); auto. destruct (pcs s' t); auto. }
    apply (W a'); auto. exists (upd aa (idx k) ai'). split; [now apply R_upd|auto].
  - (* Range is called *)
    destruct Gt as [Gi Gc]. apply (W (AS (cur a) (upd (ctls a) t (called ORange (cur a))))); [destruct a as [Aa ca]; cbn [cur ctls] in *; apply HA, ACall; auto|].
    exists aa. split; auto. apply G_own; auto. split; auto. cbn. eexists _, _. split; [reflexivity|]. split; [intros ? []|intros; lia].
  - (* the next shard *)
    destruct Gt as (Gi & Q & vis & Ec & Y1 & Y2). inversion Hs as [a1 l1 a2 Ha|]; subst. inversion Ha; subst. shard Ei.
    apply (W a); [apply HA, ATau|]. exists (upd aa i (AS A (upd c t (called ORange A)))). split; [now apply R_upd|].
    replace A with (cur (aa i)) by now rewrite Ei. replace c with (ctls (aa i)) by now rewrite Ei. apply G_tau; auto.
    split; [intros j Nj; destruct (Nat.eqb_spec i j); [congruence|auto]|]. exists [cur (aa i)], [], Q, vis. rewrite Nat.eqb_refl, app_nil_r.
    split; [reflexivity|]. split; [auto|]. split; [|split; [auto|split; [intros ? []|auto]]].
    intros B [<-|[]]. exists (cur a). split; [eapply L; eauto|apply G1].
  - (* inside the shard *)
    match goal with Hx : _ \/ _ |- _ => destruct Hx; subst end.
    + destruct (tau_whole aa g a i ai' HG Hs) as (a' & Hs' & HG'). apply (W a'); auto. exists (upd aa i ai'). split; [now apply R_upd|auto].
    + inversion Hs as [a1 l1 a2 Ha|]; subst. inversion Ha.
  - (* f answers *)
    destruct Gt as (Go & Qi & vi & Q & v0 & E1 & E2 & Hsub & Y1 & Y2 & Y3). inversion Hs as [a1 l1 a2 Ha|]; subst. inversion Ha; subst. shard Ei.
    rewrite Ei in E1. cbn [ctls] in E1. match goal with Hx : c t = ARng ?Q1 ?vi1 false |- _ => assert (Ex : Qi = Q1 /\ vi = vi1 /\ negb b = false) by (repeat split; congruence) end.
    destruct Ex as (-> & -> & Eb). rewrite Eb in E2.
    match goal with Hx : exists _, _ |- _ => destruct Hx as (A0 & HA0 & Hv) end. destruct (Hsub A0 HA0) as (B & HB & HP). destruct (pr_in _ _ _ _ _ HP Hv) as [Ek Ev].
    match goal with Hx : ~ In k _ |- _ => rename Hx into Nk end.
    apply (W (AS (cur a) (upd (ctls a) t (ARng Q ((v0 ++ vis) ++ [(k, v)]) (negb b'))))).
    { destruct a; cbn in *. apply HA. eapply AVisit; eauto. rewrite map_app, in_app_iff. intros [Hx|Hx]; [|auto]. apply Y1 in Hx. lia. }
    exists (upd aa i (AS A (upd c t (ARng Q0 (vis ++ [(k, v)]) (negb b'))))). split; [now apply R_upd|].
    replace A with (cur (aa i)) by now rewrite Ei. replace c with (ctls (aa i)) by now rewrite Ei. apply G_at; auto.
    split; [intros j Nj; destruct (Nat.eqb_spec i j); [congruence|auto]|]. rewrite Nat.eqb_refl. exists Q0, (vis ++ [(k, v)]), Q, v0. rewrite app_assoc.
    split; [reflexivity|]. split; [reflexivity|]. split; [auto|]. split; [auto|]. split; [|auto].
    intros k' Hk'. rewrite map_app, in_app_iff in Hk'. destruct Hk' as [Hk'|[<-|[]]]; auto.
  - (* f panics *)
    destruct Gt as (Go & Qi & vi & Q & v0 & E1 & E2 & Hsub & Y1 & Y2 & Y3). inversion Hs as [a1 l1 a2 Ha|]; subst. inversion Ha; subst. shard Ei.
    rewrite Ei in E1. cbn [ctls] in E1. match goal with Hx : c t = ARng ?Q1 ?vi1 false |- _ => assert (Ex : Qi = Q1 /\ vi = vi1 /\ negb b = false) by (repeat split; congruence) end.
    destruct Ex as (-> & -> & Eb). rewrite Eb in E2.
    match goal with Hx : exists _, _ |- _ => destruct Hx as (A0 & HA0 & Hv) end. destruct (Hsub A0 HA0) as (B & HB & HP). destruct (pr_in _ _ _ _ _ HP Hv) as [Ek Ev].
    match goal with Hx : ~ In k _ |- _ => rename Hx into Nk end.
    apply (W (AS (cur a) (upd (ctls a) t AIdle))).
    { destruct a; cbn in *. apply HA. eapply AVisitPanic; eauto. rewrite map_app, in_app_iff. intros [Hx|Hx]; [|auto]. apply Y1 in Hx. lia. }
    exists (upd aa i (AS A (upd c t AIdle))). split; [now apply R_upd|].
    replace A with (cur (aa i)) by now rewrite Ei. replace c with (ctls (aa i)) by now rewrite Ei. apply G_at; auto.
    split; auto. intros j. destruct (Nat.eqb_spec i j); auto.
  - (* the shard's Range returns *)
    destruct Gt as (Go & Qi & vi & Q & v0 & E1 & E2 & Hsub & Y1 & Y2 & Y3).
    apply (W a); [apply HA, ATau|]. exists (upd aa i ai'). split; [now apply R_upd|].
    assert (X : (negb b = true \/ forall k, ~ In k (map fst vi) -> absent_in Qi k) /\ ai' = AS (cur (aa i)) (upd (ctls (aa i)) t AIdle)).
    { inversion Hs as [a1 l1 a2 Ha|A c u o1 Q1 A0 r1 Ec Hi Hr]; subst; [|destruct Hr].
      inversion Ha; subst; shard Ei; rewrite Ei in E1; cbn [ctls] in E1.
      - congruence.
      - split; [|reflexivity]. match goal with Hx : c t = ARng ?Q1 ?vi1 ?s1 |- _ => assert (Ex : Qi = Q1 /\ vi = vi1 /\ negb b = s1) by (repeat split; congruence) end.
        destruct Ex as (-> & -> & <-). auto. }
    destruct X as [X ->]. apply G_tau; auto.
    assert (Ai : forall j, (if i =? j then AIdle else ctls (aa j) t) = AIdle) by (intros j; destruct (Nat.eqb_spec i j); auto).
    destruct b; cbn [negb] in *.
    + split; [exact Ai|]. exists Q, (v0 ++ vi). split; auto. destruct X as [X|X]; [discriminate|]. split.
      * intros k Hk. rewrite map_app, in_app_iff in Hk. destruct Hk as [Hk|Hk]; [apply Y1 in Hk; lia|apply Y2 in Hk; lia].
      * intros k Hk Nk. rewrite map_app, in_app_iff in Nk. destruct (Nat.eq_dec (idx k) i) as [<-|Ne].
        -- eapply sub_absent; [exact Hsub|]. apply X. auto.
        -- apply Y3; [lia|auto].
    + split; [exact Ai|]. exists Q, (v0 ++ vi), true. auto.
  - (* the last shard is done *)
    destruct Gt as (Gi & Q & vis & Ec & Y1 & Y2). apply (W a); [apply HA, ATau|]. exists aa. split; auto. apply G_tau_own; auto.
    split; auto. exists Q, vis, false. split; auto.
  - (* Range returns *)
    destruct Gt as (Gi & Q & vis & stop & Ec & Y1). apply (W (AS (cur a) (upd (ctls a) t AIdle))); [destruct a; cbn in *; apply HA; eapply ARetRange; eauto|].
    exists aa. split; auto. apply G_own; auto. split; auto.
Qed.

Lemma Rel_init : forall S, sinit S -> Rel S a0.
Proof.
  intros S [I1 I2]. split; [intros t Q vis s E; discriminate|]. exists (fun _ => a0). split; [intros i; apply R_init; auto|]. split.
  - intros i k. cbn. rewrite lookup_empty. now destruct (_ =? _).
  - intros t. rewrite I2. split; auto.
Qed.
Lemma ssim : forall tr S, exec sinit (sstep N idx) tr S -> exists a, exec ainit hstep tr a /\ Rel S a.
Proof.
  intros tr S. apply (exec_ind_inv sinit (sstep N idx) (fun tr S => exists a, exec ainit hstep tr a /\ Rel S a)).
  - intros S0 I. exists a0. split; [apply exec_nil; split; auto|now apply Rel_init].
  - intros tr0 s1 l s2 _ (a & E & RR) St. destruct (sim_sstep _ _ _ _ RR St) as (a' & Hs & RR'). exists a'. split; auto. eapply exec_snoc; eauto.
Qed.

(** Every history is a history of the specification, ending with the contents of the shards *)
Theorem srefines : forall tr (S : sst), exec sinit (sstep N idx) tr S ->
  exists tr' (a : ast), exec ainit astep tr' a /\ history tr' = history tr /\ (forall k, cur a !! k = abs (mm (shs S (idx k))) !! k) /\
    forall i k, idx k <> i -> abs (mm (shs S i)) !! k = None.
Proof.
  intros tr S E. destruct (ssim tr S E) as (a & Ha & _ & aa & HR & G1 & _). destruct (hind_refines _ _ Ha) as (tr' & a' & E' & Eh & Ec).
  exists tr', a'. split; auto. split; auto. split.
  - intros k. rewrite Ec. rewrite <- (r_cur _ _ (HR (idx k))). apply pr_out, G1.
  - intros i k Ne. rewrite <- (r_cur _ _ (HR i)). rewrite G1. destruct (Nat.eqb_spec (idx k) i); congruence.
Qed.
End Proofs.
