(** * Choosing the instant of a read afterwards

    [hstep] is [astep] of MapConcSpec except that a Load, or a LoadAndDelete that finds
    nothing, may return without having happened, with a result that was right at some instant
    since its call.  Its histories are histories of [astep]. *)
From Coq Require Import List Bool Arith Lia Permutation.
From stdpp Require Import gmap.
From Verif Require Import Trans MapConcSpec.

Section Hind.
Context {K : Type} `{Countable K} {V : Type}.
Notation amap := (gmap K V).
Notation ctl := (ctl K V).
Notation label := (label K V).
Notation ast := (ast K V).

(** Results that change nothing and were right when the contents were A *)
Definition ro (o : op K V) (A : amap) (r : res V) : Prop :=
  match o with
  | OLoad k => r = found (A !! k)
  | OLad k => A !! k = None /\ r = (None, false)
  | _ => False
  end.
Inductive hstep : ast -> label -> ast -> Prop :=
| HA : forall a l a', astep a l a' -> hstep a l a'
| HLate : forall A c t o Q A0 r, c t = APend o Q -> In A0 Q -> ro o A0 r ->
    hstep (AS A c) (LRet t o r) (AS A (upd c t AIdle)).

Lemma ro_effect : forall o A r Q, ro o A r -> effect o Q A A r.
Proof.
  intros [] A r Q R; cbn in *; try contradiction; auto. destruct R as [E ->]. rewrite E. split; auto.
  symmetry. now apply delete_notin.
Qed.

(** The same control state, perhaps knowing more past contents *)
Definition csub (c c' : ctl) : Prop :=
  match c, c' with
  | AIdle, AIdle => True
  | APend o Q, APend o' Q' => o' = o /\ incl Q Q'
  | ADone o r, ADone o' r' => o' = o /\ r' = r
  | ARng Q vis stop, ARng Q' vis' stop' => incl Q Q' /\ vis' = vis /\ stop' = stop
  | _, _ => False
  end.
Lemma csub_refl : forall c, csub c c.
Proof. intros []; cbn; auto using incl_refl. Qed.
Lemma csub_see : forall A c c', csub c c' -> csub (see A c) (see A c').
Proof.
  intros A [] []; cbn; intros; try tauto.
  - destruct H0 as [-> I]. split; auto. intros x [->|X]; [left|right]; auto.
  - destruct H0 as (I & -> & ->). repeat split; auto. intros x [->|X]; [left|right]; auto.
Qed.
Lemma csub_see_r : forall A c c', csub c c' -> csub c (see A c').
Proof.
  intros A [] []; cbn; intros; try tauto.
  - destruct H0 as [-> I]. split; auto. intros x X. right; auto.
  - destruct H0 as (I & -> & ->). repeat split; auto. intros x X. right; auto.
Qed.
Lemma effect_mono : forall (o : op K V) (Q Q' : list amap) A A' r, incl Q Q' -> effect o Q A A' r -> effect o Q' A A' r.
Proof.
  intros [] Q Q' A A' r I; cbn; auto. destruct (A !! k); auto.
  intros (A0 & w & v0 & H0 & R). exists A0, w, v0. split; auto.
Qed.
Lemma comp_ok_mono : forall (o : op K V) (Q Q' : list amap) old r, incl Q Q' -> comp_ok o Q old r -> comp_ok o Q' old r.
Proof.
  intros [] Q Q' old r I; cbn; auto.
  - intros (X & (A & Y & Z) & W). repeat split; auto. exists A; auto.
  - intros (A0 & w & X & Y). exists A0, w. auto.
Qed.

(** L chooses results for some calls that have not happened. *)
Definition just (c : nat -> ctl) (x : nat * res V) : Prop :=
  exists o Q A0, c (fst x) = APend o Q /\ In A0 Q /\ ro o A0 (snd x).
Definition chosen (c : nat -> ctl) (L : list (nat * res V)) (c' : nat -> ctl) : Prop :=
  (forall t r, In (t, r) L -> exists o Q, c t = APend o Q /\ c' t = ADone o r) /\
  (forall t, ~ In t (map fst L) -> csub (c t) (c' t)).

Lemma split_list : forall {X} (P P' : X -> Prop) L, (forall x, In x L -> P x \/ P' x) ->
  exists L1 L2, Permutation L (L1 ++ L2) /\ (forall x, In x L1 -> P x) /\ (forall x, In x L2 -> P' x).
Proof.
  intros X P P' L. induction L as [|x L IH]; intros HL.
  - exists [], []. split; [apply perm_nil|split; intros x []].
  - destruct IH as (L1 & L2 & Pm & H1 & H2); [intros; apply HL; now right|].
    destruct (HL x (or_introl eq_refl)) as [Hx|Hx].
    + exists (x :: L1), L2. split; [cbn; now apply perm_skip|split; auto]. intros y [<-|]; auto.
    + exists L1, (x :: L2). split; [rewrite Pm; apply Permutation_middle|split; auto]. intros y [<-|]; auto.
Qed.

Lemma chosen_perm : forall c L L' c', Permutation L L' -> chosen c L c' -> chosen c L' c'.
Proof.
  intros c L L' c' Pm [C1 C2]. split.
  - intros t r I. apply C1. eapply Permutation_in; [symmetry; eassumption|auto].
  - intros t I. apply C2. intros X. apply I. eapply Permutation_in; [apply Permutation_map; eassumption|auto].
Qed.

Definition now (A : amap) (c : nat -> ctl) (x : nat * res V) : Prop :=
  exists o Q, c (fst x) = APend o Q /\ ro o A (snd x).

Lemma history_app : forall (a b : list label), history (a ++ b) = history a ++ history b.
Proof. intros. unfold history. apply List.filter_app. Qed.

Lemma late : forall A c L2 L1 tr c', exec ainit astep tr (AS A c') -> chosen c L1 c' ->
  List.NoDup (map fst (L2 ++ L1)) -> (forall x, In x L2 -> now A c x) ->
  exists tr' c'', exec ainit astep tr' (AS A c'') /\ history tr' = history tr /\ chosen c (L2 ++ L1) c''.
Proof.
  intros A c L2. induction L2 as [|[t r] L2 IH]; intros L1 tr c' R Ch ND HN.
  - exists tr, c'. auto.
  - cbn in ND. inversion ND as [|? ? N1 N2]; subst.
    destruct (IH L1 tr c' R Ch N2) as (tr1 & c1 & R1 & E1 & C1 & C2); [intros; apply HN; now right|].
    destruct (HN (t, r) (or_introl eq_refl)) as (o & Q & Ec & Ro). cbn in Ec, Ro.
    pose proof (C2 t N1) as S. rewrite Ec in S. destruct (c1 t) as [|o1 Q1| |] eqn:E; cbn in S; try contradiction. destruct S as [-> I].
    exists (tr1 ++ [LTau]), (upd (fun u => see A (c1 u)) t (ADone o r)). split; [|split].
    + eapply exec_snoc; [exact R1|]. eapply ALin; [exact E|]. now apply ro_effect.
    + rewrite history_app. cbn. now rewrite app_nil_r.
    + split.
      * intros u r' [X|X].
        -- injection X as -> ->. exists o, Q. rewrite upd_same. auto.
        -- assert (u <> t). { intros ->. apply N1. change t with (fst (t, r')). now apply in_map. }
           rewrite upd_other by auto. destruct (C1 u r' X) as (o' & Q' & E' & E''). exists o', Q'. rewrite E''. auto.
      * intros u X. cbn in X. rewrite upd_other by (intros ->; apply X; now left).
        apply csub_see_r. apply C2. intros Y. apply X. now right.
Qed.

(** Steps of [astep] other than calls keep the choices that can be made. *)
Lemma hind_main : forall tr a, exec ainit hstep tr a -> forall L, List.NoDup (map fst L) -> (forall x, In x L -> just (ctls a) x) ->
  exists tr' c', exec ainit astep tr' (AS (cur a) c') /\ history tr' = history tr /\ chosen (ctls a) L c'.
Proof.
  intros tr a E. revert tr a E. apply (exec_ind_inv ainit hstep (fun tr a => forall L, List.NoDup (map fst L) -> (forall x, In x L -> just (ctls a) x) ->
    exists tr' c', exec ainit astep tr' (AS (cur a) c') /\ history tr' = history tr /\ chosen (ctls a) L c')).
  - intros [A c] [HA HC] L ND J. cbn in *. destruct L as [|x L].
    + exists [], c. repeat split; auto using csub_refl; try (intros ? ? []). apply exec_nil. split; auto.
    + destruct (J x (or_introl eq_refl)) as (o & Q & A0 & X & _). rewrite HC in X. discriminate.
  - intros tr a l a' E IH St L ND J.
    (* choices made before the step, choices made after it *)
    assert (NDP : forall L1 L2, Permutation L (L2 ++ L1) -> List.NoDup (map fst (L2 ++ L1)) /\ List.NoDup (map fst L1)).
    { intros L1 L2 Pm. assert (N : List.NoDup (map fst (L2 ++ L1))) by (eapply Permutation_NoDup; [apply Permutation_map; exact Pm|auto]).
      split; auto. rewrite map_app in N. clear - N. induction (map fst L2); auto. inversion N; auto. }
    assert (FIN : forall L1 L2 (c1 : nat -> ctl) A1 l, Permutation L (L2 ++ L1) -> ctls a' = c1 -> cur a' = A1 ->
        (forall x, In x L2 -> now A1 c1 x) ->
        (forall x, In x L1 -> just (ctls a) x) ->
        (forall c', chosen (ctls a) L1 c' -> exists c1', astep (AS (cur a) c') l (AS A1 c1') /\ chosen c1 L1 c1') ->
        exists tr' c', exec ainit astep tr' (AS A1 c') /\ history tr' = history (tr ++ [l]) /\ chosen c1 L c').
    { intros L1 L2 c1 A1 l0 Pm Ec EA HN HJ HS. destruct (NDP _ _ Pm) as [N N1].
      destruct (IH L1 N1 HJ) as (tr1 & c' & R & Hh & Ch). destruct (HS c' Ch) as (c1' & S1 & Ch1).
      destruct (late A1 c1 L2 L1 (tr1 ++ [l0]) c1' (exec_snoc _ _ _ _ _ _ R S1) Ch1 N HN) as (tr2 & c2 & R2 & H2 & Ch2).
      exists tr2, c2. split; auto. split; [rewrite H2, !history_app, Hh; auto|].
      eapply chosen_perm; [symmetry; exact Pm|exact Ch2]. }
    (* a goroutine whose control state is not a pending Load or LoadAndDelete is not in L *)
    destruct St as [a l a' St|A c t o Q A0 r Ec I Ro].
    + destruct St as [A c t o Ec|A c t o Q A' r Ec Ef|A c t o r Ec|A c t o Q old v Ec Ok|A c t o Q old Ec Ok
        |A c t Q vis k v b Ec Nv Pv|A c t Q vis k v Ec Nv Pv|A c t Q vis stop Ec Hs|a]; cbn [cur ctls] in *.
      * (* call *)
        destruct (split_list (now A (upd c t (called o A))) (fun x => fst x <> t /\ just c x) L) as (L2 & L1 & Pm & P2 & P1).
        { intros x Hx. destruct (J x Hx) as (o' & Q' & A0 & X & I & Ro). destruct (Nat.eq_dec (fst x) t) as [Et|Et].
          - left. exists o', Q'. split; auto. rewrite Et, upd_same in X. destruct o; cbn in X; try discriminate; injection X as <- <-;
              destruct I as [<-|[]]; auto.
          - right. split; auto. rewrite upd_other in X by auto. exists o', Q', A0. auto. }
        eapply FIN; eauto. { intros x Hx. apply P1; auto. }
        intros c' [C1 C2].
        assert (Nt : ~ In t (map fst L1)). { intros X. apply in_map_iff in X. destruct X as (x & <- & Hx). now apply (P1 x Hx). }
        pose proof (C2 t Nt) as Sb. rewrite Ec in Sb. destruct (c' t) eqn:Et; cbn in Sb; try contradiction.
        eexists. split; [apply ACall; exact Et|]. split.
        -- intros u r Hu. assert (u <> t) by (intros ->; apply Nt; change t with (fst (t, r)); now apply in_map).
           rewrite !upd_other by auto. apply C1; auto.
        -- intros u Hu. destruct (Nat.eq_dec u t) as [->|]; [rewrite !upd_same; apply csub_refl|rewrite !upd_other by auto; auto].
      * (* lin *)
        destruct (split_list (now A' (upd (fun u => see A' (c u)) t (ADone o r))) (fun x => fst x <> t /\ just c x) L) as (L2 & L1 & Pm & P2 & P1).
        { intros x Hx. destruct (J x Hx) as (o' & Q' & A0 & X & I & Ro). destruct (Nat.eq_dec (fst x) t) as [Et|Et].
          - rewrite Et, upd_same in X. discriminate.
          - pose proof X as X0. rewrite upd_other in X by auto. destruct (c (fst x)) eqn:Ex; cbn in X; try discriminate. injection X as -> <-.
            destruct I as [<-|I]; [left|right].
            + exists o', (A' :: Q0). auto.
            + split; auto. exists o', Q0, A0. auto. }
        eapply FIN; eauto. { intros x Hx. apply P1; auto. }
        intros c' [C1 C2].
        assert (Nt : ~ In t (map fst L1)). { intros X. apply in_map_iff in X. destruct X as (x & <- & Hx). now apply (P1 x Hx). }
        pose proof (C2 t Nt) as Sb. rewrite Ec in Sb. destruct (c' t) eqn:Et; cbn in Sb; try contradiction. destruct Sb as [-> In1].
        eexists. split; [eapply ALin; [exact Et|eapply effect_mono; eauto]|]. split.
        -- intros u r' Hu. assert (u <> t) by (intros ->; apply Nt; change t with (fst (t, r')); now apply in_map).
           rewrite !upd_other by auto. destruct (C1 u r' Hu) as (o' & Q' & E1 & E2). rewrite E1, E2. cbn. eauto.
        -- intros u Hu. destruct (Nat.eq_dec u t) as [->|]; [rewrite !upd_same; apply csub_refl|rewrite !upd_other by auto; apply csub_see; auto].
      * (* ret *)
        assert (Jt : forall x, In x L -> fst x <> t /\ just c x).
        { intros x Hx. destruct (J x Hx) as (o' & Q' & A0 & X & I & Ro). destruct (Nat.eq_dec (fst x) t) as [Et|Et].
          - rewrite Et, upd_same in X. discriminate.
          - split; auto. rewrite upd_other in X by auto. exists o', Q', A0. auto. }
        apply (FIN L []); auto; [intros x []|intros x Hx; apply Jt; auto|].
        intros c' [C1 C2].
        assert (Nt : ~ In t (map fst L)). { intros X. apply in_map_iff in X. destruct X as (x & <- & Hx). now apply (Jt x Hx). }
        pose proof (C2 t Nt) as Sb. rewrite Ec in Sb. destruct (c' t) eqn:Et; cbn in Sb; try contradiction. destruct Sb as [-> ->].
        eexists. split; [apply ARet; exact Et|]. split.
        -- intros u r' Hu. assert (u <> t) by (intros ->; apply Nt; change t with (fst (t, r')); now apply in_map).
           rewrite !upd_other by auto. apply C1; auto.
        -- intros u Hu. destruct (Nat.eq_dec u t) as [->|]; [rewrite !upd_same; apply csub_refl|rewrite !upd_other by auto; auto].
      * (* comp *)
        assert (Jt : forall x, In x L -> fst x <> t).
        { intros x Hx Et. destruct (J x Hx) as (o' & Q' & A0 & X & I & Ro). rewrite Et, Ec in X. injection X as <- <-. destruct o; cbn in *; contradiction. }
        apply (FIN L []); auto; [intros x []|].
        intros c' [C1 C2].
        assert (Nt : ~ In t (map fst L)). { intros X. apply in_map_iff in X. destruct X as (x & <- & Hx). now apply (Jt x Hx). }
        pose proof (C2 t Nt) as Sb. rewrite Ec in Sb. destruct (c' t) eqn:Et; cbn in Sb; try contradiction. destruct Sb as [-> In1].
        eexists. split; [eapply AComp; [exact Et|eapply comp_ok_mono; eauto]|]. split; auto.
      * (* comp panic *)
        assert (Jt : forall x, In x L -> fst x <> t /\ just c x).
        { intros x Hx. destruct (J x Hx) as (o' & Q' & A0 & X & I & Ro). destruct (Nat.eq_dec (fst x) t) as [Et|Et].
          - rewrite Et, upd_same in X. discriminate.
          - split; auto. rewrite upd_other in X by auto. exists o', Q', A0. auto. }
        apply (FIN L []); auto; [intros x []|intros x Hx; apply Jt; auto|].
        intros c' [C1 C2].
        assert (Nt : ~ In t (map fst L)). { intros X. apply in_map_iff in X. destruct X as (x & <- & Hx). now apply (Jt x Hx). }
        pose proof (C2 t Nt) as Sb. rewrite Ec in Sb. destruct (c' t) eqn:Et; cbn in Sb; try contradiction. destruct Sb as [-> In1].
        eexists. split; [eapply ACompPanic; [exact Et|eapply comp_ok_mono; eauto]|]. split.
        -- intros u r' Hu. assert (u <> t) by (intros ->; apply Nt; change t with (fst (t, r')); now apply in_map).
           rewrite !upd_other by auto. apply C1; auto.
        -- intros u Hu. destruct (Nat.eq_dec u t) as [->|]; [rewrite !upd_same; apply csub_refl|rewrite !upd_other by auto; auto].
      * (* visit *)
        assert (Jt : forall x, In x L -> fst x <> t /\ just c x).
        { intros x Hx. destruct (J x Hx) as (o' & Q' & A0 & X & I & Ro). destruct (Nat.eq_dec (fst x) t) as [Et|Et].
          - rewrite Et, upd_same in X. discriminate.
          - split; auto. rewrite upd_other in X by auto. exists o', Q', A0. auto. }
        apply (FIN L []); auto; [intros x []|intros x Hx; apply Jt; auto|].
        intros c' [C1 C2].
        assert (Nt : ~ In t (map fst L)). { intros X. apply in_map_iff in X. destruct X as (x & <- & Hx). now apply (Jt x Hx). }
        pose proof (C2 t Nt) as Sb. rewrite Ec in Sb. destruct (c' t) eqn:Et; cbn in Sb; try contradiction. destruct Sb as (In1 & -> & ->).
        eexists. split; [eapply AVisit; [exact Et|exact Nv|destruct Pv as (A0 & P0 & Pv); exists A0; auto]|]. split.
        -- intros u r' Hu. assert (u <> t) by (intros ->; apply Nt; change t with (fst (t, r')); now apply in_map).
           rewrite !upd_other by auto. apply C1; auto.
        -- intros u Hu. destruct (Nat.eq_dec u t) as [->|]; [rewrite !upd_same; cbn; auto|rewrite !upd_other by auto; auto].
      * (* visit panic *)
        assert (Jt : forall x, In x L -> fst x <> t /\ just c x).
        { intros x Hx. destruct (J x Hx) as (o' & Q' & A0 & X & I & Ro). destruct (Nat.eq_dec (fst x) t) as [Et|Et].
          - rewrite Et, upd_same in X. discriminate.
          - split; auto. rewrite upd_other in X by auto. exists o', Q', A0. auto. }
        apply (FIN L []); auto; [intros x []|intros x Hx; apply Jt; auto|].
        intros c' [C1 C2].
        assert (Nt : ~ In t (map fst L)). { intros X. apply in_map_iff in X. destruct X as (x & <- & Hx). now apply (Jt x Hx). }
        pose proof (C2 t Nt) as Sb. rewrite Ec in Sb. destruct (c' t) eqn:Et; cbn in Sb; try contradiction. destruct Sb as (In1 & -> & ->).
        eexists. split; [eapply AVisitPanic; [exact Et|exact Nv|destruct Pv as (A0 & P0 & Pv); exists A0; auto]|]. split.
        -- intros u r' Hu. assert (u <> t) by (intros ->; apply Nt; change t with (fst (t, r')); now apply in_map).
           rewrite !upd_other by auto. apply C1; auto.
        -- intros u Hu. destruct (Nat.eq_dec u t) as [->|]; [rewrite !upd_same; apply csub_refl|rewrite !upd_other by auto; auto].
      * (* range returns *)
        assert (Jt : forall x, In x L -> fst x <> t /\ just c x).
        { intros x Hx. destruct (J x Hx) as (o' & Q' & A0 & X & I & Ro). destruct (Nat.eq_dec (fst x) t) as [Et|Et].
          - rewrite Et, upd_same in X. discriminate.
          - split; auto. rewrite upd_other in X by auto. exists o', Q', A0. auto. }
        apply (FIN L []); auto; [intros x []|intros x Hx; apply Jt; auto|].
        intros c' [C1 C2].
        assert (Nt : ~ In t (map fst L)). { intros X. apply in_map_iff in X. destruct X as (x & <- & Hx). now apply (Jt x Hx). }
        pose proof (C2 t Nt) as Sb. rewrite Ec in Sb. destruct (c' t) eqn:Et; cbn in Sb; try contradiction. destruct Sb as (In1 & -> & ->).
        eexists. split; [eapply ARetRange; [exact Et|]|].
        { destruct Hs as [Hs|Hs]; [left; auto|right]. intros k Nk. destruct (Hs k Nk) as (A0 & X & Y). exists A0. auto. }
        split.
        -- intros u r' Hu. assert (u <> t) by (intros ->; apply Nt; change t with (fst (t, r')); now apply in_map).
           rewrite !upd_other by auto. apply C1; auto.
        -- intros u Hu. destruct (Nat.eq_dec u t) as [->|]; [rewrite !upd_same; apply csub_refl|rewrite !upd_other by auto; auto].
      * (* tau *)
        apply (FIN L []); auto; [intros x []|]. intros c' Ch. exists c'. split; [apply ATau|auto].
    + (* late return: choose the result now *)
      cbn [cur ctls] in *.
      assert (Jt : forall x, In x L -> fst x <> t /\ just c x).
      { intros x Hx. destruct (J x Hx) as (o' & Q' & A1 & X & I1 & Ro1). destruct (Nat.eq_dec (fst x) t) as [Et|Et].
        - rewrite Et, upd_same in X. discriminate.
        - split; auto. rewrite upd_other in X by auto. exists o', Q', A1. auto. }
      assert (Nt : ~ In t (map fst L)). { intros X. apply in_map_iff in X. destruct X as (x & <- & Hx). now apply (Jt x Hx). }
      destruct (IH ((t, r) :: L)) as (tr1 & c' & R & Hh & C1 & C2).
      { cbn. constructor; auto. }
      { intros x [<-|Hx]; [exists o, Q, A0; auto|apply Jt; auto]. }
      destruct (C1 t r (or_introl eq_refl)) as (o' & Q' & E1 & E2). rewrite Ec in E1. injection E1 as <- <-.
      exists (tr1 ++ [LRet t o r]), (upd c' t AIdle). split; [|split].
      * eapply exec_snoc; [exact R|]. apply ARet. exact E2.
      * rewrite !history_app, Hh. auto.
      * split.
        -- intros u r' Hu. assert (u <> t) by (intros ->; apply Nt; change t with (fst (t, r')); now apply in_map).
           rewrite !upd_other by auto. apply C1. now right.
        -- intros u Hu. destruct (Nat.eq_dec u t) as [->|]; [rewrite !upd_same; apply csub_refl|rewrite !upd_other by auto].
           apply C2. intros [X|X]; auto.
Qed.

Theorem hind_refines : forall tr a, exec ainit hstep tr a -> exists tr' a', exec ainit astep tr' a' /\ history tr' = history tr /\ cur a' = cur a.
Proof.
  intros tr a E. destruct (hind_main tr a E [] (List.NoDup_nil _)) as (tr' & c' & R & Hh & _); [intros x []|].
  exists tr', (AS (cur a) c'). auto.
Qed.
End Hind.
