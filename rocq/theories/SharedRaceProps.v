(** * C115: a SharedMap has no data race, unless Clear is called *)
From Coq Require Import List Bool Arith Lia Permutation.
From Verif Require RaceSpec.
From Verif Require Import Trans SyncSpec MapConcSpec MapConcModel MapFineModel MapRaceSpec MapRaceProps SharedRaceModel SharedRaceProofs.
Import ListNotations.

Section Props.
Context {K V : Type} (geq : K -> K -> bool) (hashable : K -> bool) (N : nat) (idx : K -> nat).
Notation run := (exec (@sfinit K V) (sfstep geq hashable N idx)).
(** No shard's Clear is called. *)
Definition no_clear (T : list (ev place nat (nat * label K V))) : Prop := forall u i t, ~ In (u, ALab (i, LCall t OClear)) T.
Lemma shard_quiet : forall tr i, no_clear (concat tr) -> forall u t, ~ In (u, RaceSpec.ALab (LCall t OClear)) (proj i (concat tr)).
Proof.
  intros tr i H u t Hin. apply In_nth_error in Hin. destruct Hin as [p Hp]. destruct (nth_rank _ _ _ _ _ Hp) as (P & HP & _). apply (H u i t). eapply nth_error_In. exact HP.
Qed.

(** However many goroutines call the SharedMap and however their accesses interleave, of two accesses to one place by two
    goroutines, of which one writes and not both go through sync/atomic, one happens before the other. *)
Theorem C115_no_race : forall tr s, run tr s -> no_clear (concat tr) -> race_free (concat tr).
Proof.
  intros tr s R Hc [|i x] P Q t u a b L HP HQ Ne Ta Tb W At.
  - exfalso. assert (NW : forall t a, In (t, a) (concat tr) -> ~ writes a PHead).
    { intros t0 a0 Hin Hw. destruct (only_shards _ _ _ _ _ _ R _ _ Hin) as [->|(i & [x []|x []|x| | |l] & ->)]; destruct Hw as [E|[E|E]]; discriminate. }
    destruct W as [W|W]; [exact (NW _ _ (nth_error_In _ _ HP) W)|exact (NW _ _ (nth_error_In _ _ HQ) W)].
  - destruct (shard_runs _ _ _ _ _ _ R i) as (tri & Ri & E). pose proof (C100_no_race _ _ _ _ Ri) as C. rewrite E in C. specialize (C (shard_quiet _ _ Hc)).
    assert (X : forall a : act place nat (nat * label K V), touches a (PIn i x) -> exists b, a = tag i b /\ RaceSpec.touches b x /\ (writes a (PIn i x) -> RaceSpec.writes b x)).
    { intros c [Hr|Hw].
      - destruct (reads_tag _ _ _ Hr) as (d & -> & Hd). exists d. split; [reflexivity|]. split; [now left|]. intros Hw. destruct (writes_tag _ _ _ Hw) as (d2 & E2 & Hd2). apply tag_inj in E2. now subst.
      - destruct (writes_tag _ _ _ Hw) as (d & -> & Hd). exists d. split; [reflexivity|]. split; [now right|auto]. }
    destruct (X _ Ta) as (a' & -> & Ta' & Wa), (X _ Tb) as (b' & -> & Tb' & Wb).
    apply (hb_lift i _ (rank i (concat tr) P) (rank i (concat tr) Q)); eauto.
    apply (C _ _ t u a' b' x); [eapply rank_lt; eauto|now apply rank_nth|now apply rank_nth|exact Ne|exact Ta'|exact Tb'|tauto|].
    rewrite !(tag_atomic i). exact At.
Qed.
(** A value that comes out of the SharedMap was put into the same shard by something that happens before. *)
Theorem C115_happens_before : forall tr s j t i l v, run tr s -> no_clear (concat tr) ->
  nth_error (concat tr) j = Some (t, ALab (i, l)) -> hands (L := loc) (RaceSpec.ALab l) v ->
  exists k u m, nth_error (concat tr) k = Some (u, ALab (i, m)) /\ gives (L := loc) (RaceSpec.ALab m) v /\ hb (concat tr) k j.
Proof.
  intros tr s j t i l v R Hc Hj Hh. destruct (shard_runs _ _ _ _ _ _ R i) as (tri & Ri & E).
  assert (Hj' := rank_nth i _ _ _ (RaceSpec.ALab l) Hj). rewrite <- E in Hj'.
  destruct (C100_happens_before _ _ _ _ _ _ _ _ Ri ltac:(rewrite E; now apply shard_quiet) Hj' Hh) as (p & u & b & Hp & Hg & Hb). rewrite E in Hp, Hb.
  destruct (nth_rank _ _ _ _ _ Hp) as (P & HP & EP). destruct b as [x f|x f|x| | |m]; cbn in Hg; try contradiction.
  exists P, u, m. split; [exact HP|]. split; [exact Hg|]. eapply hb_lift; eauto. exists t, (RaceSpec.ALab l). exact Hj.
Qed.
(** A key's calls are calls of the key's shard. *)
Theorem C115_shard : forall tr s u i t o k, run tr s -> In (u, ALab (i, LCall t o)) (concat tr) -> keyof o = Some k -> i = idx k.
Proof.
  intros tr s u i t o k R. revert tr s R. apply (exec_ind_inv _ _ (fun tr s => In (u, ALab (i, LCall t o)) (concat tr) -> keyof o = Some k -> i = idx k)); [contradiction|].
  intros tr s D s' _ IH St Hin Hk. rewrite concat_app in Hin. cbn [concat] in Hin. rewrite app_nil_r in Hin. apply in_app_or in Hin. destruct Hin as [Hin|Hin]; [auto|]. clear IH.
  destruct St as [s w Hf|sh f w j o2 s2 Hf Hj Ho Hi|sh f w j l s2 Hf Hn (g' & p' & Hi & _)|sh f w j Hf Hn].
  - destruct Hin as [E|[]]. discriminate.
  - destruct Hin as [E|[]]. injection E as _ -> _ ->. auto.
  - exfalso. apply in_map_iff in Hin. destruct Hin as (a & E & Ha). destruct a as [x []|x []|x| | |b]; try discriminate. cbn in E. injection E as _ _ ->. clear - Hi Ha Hn.
    inversion Hi; subst; try match type of Ha with In _ (map_read ?m) => destruct m | In _ (match ?x with WNil => _ | WExp => _ | WVal _ => _ end) => destruct x end; cbn in Ha; try congruence; repeat (destruct Ha as [Ha|Ha]; [try discriminate; congruence|]); try contradiction.
  - destruct Hin.
Qed.
(** With Clear there is one: a shard's Clear assigns what its Range reads through sync/atomic. *)
Theorem C115_clear_refuted : 0 < N -> ~ (forall tr s, run tr s -> race_free (concat tr)).
Proof.
  intros HN H.
  set (T := [(0, ALab (0, LCall 0 OClear)); (0, ALock 0); (0, AWr (PIn 0 LRead)); (1, ALab (0, LCall 1 ORange)); (1, AtRd (PIn 0 LRead))] : list (ev place nat (nat * label K V))).
  assert (Hr : race_free T).
  { eapply (H [[(0, ALab (0, LCall 0 OClear))]; [(0, ALock 0)]; [(0, AWr (PIn 0 LRead))]; [(1, ALab (0, LCall 1 ORange))]; [(1, AtRd (PIn 0 LRead))]]).
    exists (SF (fun _ => FSt fmem0 (fun _ => IStop)) (fun _ => None)). split; [now repeat split|].
    eapply steps_cons; [apply (XCall geq hashable N idx _ _ 0 0 OClear); [reflexivity|exact HN|discriminate|eexists _, _; split; [apply FCall|reflexivity]]|].
    eapply steps_cons; [apply (XMove geq hashable N idx _ _ 0 0 [RaceSpec.ALock]); [reflexivity|discriminate|eexists _, _; split; [cbn; apply FLock; reflexivity|reflexivity]]|].
    eapply steps_cons; [apply (XMove geq hashable N idx _ _ 0 0 [RaceSpec.AWr LRead false]); [reflexivity|discriminate|eexists _, _; split; [cbn; apply FZeroRead|reflexivity]]|].
    eapply steps_cons; [apply (XCall geq hashable N idx _ _ 1 0 ORange); [reflexivity|exact HN|discriminate|eexists _, _; split; [apply FCall|reflexivity]]|].
    eapply steps_cons; [apply (XMove geq hashable N idx _ _ 1 0 [RaceSpec.ARd LRead true]); [reflexivity|discriminate|eexists _, _; split; [cbn; apply FLoadRead|reflexivity]]|]. apply steps_nil. }
  assert (Hb : hb T 2 4).
  { eapply (Hr (PIn 0 LRead) 2 4 0 1); try reflexivity; try lia; [right; left; reflexivity|left; right; left; reflexivity|left; left; reflexivity|]. intros [E _]. exact E. }
  assert (Q : forall i j, hb T i j -> i = 2 -> False); [|exact (Q _ _ Hb eq_refl)]. clear Hr Hb.
  intros i j Hh. induction Hh as [i j t a b Hl Hi Hj|i j t u a b Hl Hi Hj Hp|i j t u a b x Hl Hi Hj Ha Hw _ _ _|i j c k Hl ((t & a & Hi & c9 & ->) & _)|i j c k n9 u Hl ((t & a & Hi & ->) & _)|i j k H1 I1 H2 I2]; [| | | | |exact I1]; intros ->; try discriminate.
  - injection Hi as <- <-. do 3 (destruct j as [|j]; [lia|]). do 2 (destruct j as [|j]; [discriminate Hj|]). destruct j; discriminate Hj.
  - injection Hi as <- <-. inversion Hp.
  - injection Hi as <- <-. destruct Ha.
Qed.
End Props.

(** ** A run with two shards, a key's shard being its remainder by 2: goroutine 0 stores 8 under 7, leaves shard 1 and ranges
    over shard 0; goroutine 1 loads 7.  They share places of shard 1. *)
Notation nstep := (sfstep Nat.eqb (fun _ => true) 2 (fun k => k mod 2)).
Inductive solo (t : nat) : fst_ nat nat -> list (list (RaceSpec.act loc (label nat nat))) -> fst_ nat nat -> Prop :=
| so_nil : forall s, solo t s [] s
| so_cons : forall g p l g1 p1 tr s2, p t <> IStop -> fstep1 Nat.eqb (fun _ => true) t g (p t) l g1 p1 -> solo t (FSt g1 (upd p t p1)) tr s2 -> solo t (FSt g p) (l :: tr) s2.
Lemma solo_run : forall t i s tr s', solo t s tr s' -> forall sh f, sh i = s -> f t = Some i ->
  exists sh', steps nstep (SF sh f) (map (map (fun a => (t, tag i a))) tr) (SF sh' f) /\ sh' i = s' /\ forall j, j <> i -> sh' j = sh j.
Proof.
  intros t i s tr s' H. induction H as [s|g p l g1 p1 tr s2 Hn St H IH]; intros sh f E Ef; [exists sh; repeat split; auto; constructor|].
  destruct (IH (upd sh i (FSt g1 (upd p t p1))) f) as (sh' & R & E1 & E2); [apply upd_same|exact Ef|]. exists sh'. split; [|split; [exact E1|]].
  - cbn [map]. eapply steps_cons; [|exact R]. apply XMove; [exact Ef|now rewrite E|]. exists g1, p1. now rewrite E.
  - intros j N0. rewrite E2 by exact N0. apply upd_other. congruence.
Qed.
Ltac go t := eapply so_cons; [cbn; discriminate|cbn; first [apply (FLook Nat.eqb (fun _ => true)); reflexivity|eapply FIter; apply Permutation_refl|econstructor; reflexivity|econstructor]|cbn].
Lemma store_solo : exists tr p' g', solo 0 (FSt fmem0 (upd (fun _ => IStop) 0 (code (OStore 7 8)))) tr (FSt g' p') /\ p' 0 = IStop /\ p' 1 = IStop /\
  (exists tr2 s2, solo 1 (FSt g' (upd p' 1 (code (OLoad 7)))) tr2 s2 /\ In (RaceSpec.ALab (LRet 1 (OLoad 7) (Some 8, true))) (concat tr2) /\ In (RaceSpec.ARd (LMap 0) false) (concat tr2) /\
    (forall t, ~ In (RaceSpec.ALab (LCall t OClear)) (concat tr2))) /\
  In (RaceSpec.AWr (LMap 0) false) (concat tr) /\ (forall t, ~ In (RaceSpec.ALab (LCall t OClear)) (concat tr)).
Proof.
  eexists _, _, _. split; [do 19 go 0; apply so_nil|]. split; [reflexivity|]. split; [reflexivity|]. split.
  - eexists _, _. split; [do 20 go 1; apply so_nil|]. cbn. split; [tauto|]. split; [tauto|]. intros t Hc. repeat (destruct Hc as [Hc|Hc]; [discriminate|]). contradiction.
  - cbn. split; [tauto|]. intros t Hc. repeat (destruct Hc as [Hc|Hc]; [discriminate|]). contradiction.
Qed.
Lemma concat_tag : forall (t i : nat) (tr : list (list (RaceSpec.act loc (label nat nat)))), concat (map (map (fun a => (t, tag i a))) tr) = map (fun a => (t, tag i a)) (concat tr).
Proof. intros. now rewrite concat_map. Qed.
Lemma tag_clear : forall (t i u j w : nat) (l : list (RaceSpec.act loc (label nat nat))), (forall t, ~ In (RaceSpec.ALab (LCall t OClear)) l) -> ~ In (u, ALab (j, LCall w OClear)) (map (fun a => (t, tag i a)) l).
Proof. intros t i u j w l H Hin. apply in_map_iff in Hin. destruct Hin as ([x []|x []|x| | |b] & E & Ha); try discriminate. cbn in E. injection E as _ _ ->. exact (H _ Ha). Qed.
Example C115_ex : exists tr (s : sfst nat nat), exec sfinit nstep tr s /\ no_clear (concat tr) /\
  In (1, ALab (1, LRet 1 (OLoad 7) (Some 8, true))) (concat tr) /\ In (0, ALab (0, LCall 0 ORange)) (concat tr) /\
  In (0, AWr (PIn 1 (LMap 0))) (concat tr) /\ In (1, ARd (PIn 1 (LMap 0))) (concat tr) /\ In (0, ARd PHead) (concat tr).
Proof.
  destruct store_solo as (tr1 & p1 & g1 & S1 & I0 & I1 & (tr2 & s2 & S2 & L1 & L2 & C2) & L3 & C1).
  set (z := fun _ : nat => FSt (fmem0 : fmem nat nat) (fun _ => IStop)). set (f0 := fun _ : nat => @None nat).
  assert (A0 : nstep (SF z f0) [(0, ARd PHead)] (SF z f0)) by (apply XHead; reflexivity).
  assert (A1 : nstep (SF z f0) [(0, ALab (1, LCall 0 (OStore 7 8)))] (SF (upd z 1 (FSt fmem0 (upd (fun _ => IStop) 0 (code (OStore 7 8))))) (upd f0 0 (Some 1)))).
  { apply XCall; [reflexivity|lia|intros k E; injection E as <-; reflexivity|]. exists fmem0, (code (OStore 7 8)). split; [apply FCall|reflexivity]. }
  destruct (solo_run 0 1 _ _ _ S1 (upd z 1 (FSt fmem0 (upd (fun _ => IStop) 0 (code (OStore 7 8))))) (upd f0 0 (Some 1))) as (sh1 & R1 & E1 & O1); [apply upd_same|apply upd_same|].
  assert (A2 : nstep (SF sh1 (upd f0 0 (Some 1))) [] (SF sh1 (upd (upd f0 0 (Some 1)) 0 None))) by (apply XOut with 1; [apply upd_same|now rewrite E1]).
  set (f2 := upd (upd f0 0 (Some 1)) 0 None) in *.
  assert (A3 : nstep (SF sh1 f2) [(0, ALab (0, LCall 0 ORange))] (SF (upd sh1 0 (FSt fmem0 (upd (fun _ => IStop) 0 (code ORange)))) (upd f2 0 (Some 0)))).
  { apply XCall; [reflexivity|lia|discriminate|]. exists fmem0, (code ORange). rewrite O1 by lia. rewrite upd_other by lia. split; [apply FCall|reflexivity]. }
  set (sh3 := upd sh1 0 (FSt fmem0 (upd (fun _ => IStop) 0 (code ORange)))) in *. set (f3 := upd f2 0 (Some 0)) in *.
  assert (E3 : sh3 1 = FSt g1 p1) by (unfold sh3; rewrite upd_other by lia; exact E1).
  assert (A4 : nstep (SF sh3 f3) [(1, ALab (1, LCall 1 (OLoad 7)))] (SF (upd sh3 1 (FSt g1 (upd p1 1 (code (OLoad 7))))) (upd f3 1 (Some 1)))).
  { apply XCall; [reflexivity|lia|intros k E; injection E as <-; reflexivity|]. exists g1, (code (OLoad 7)). rewrite E3. cbn [fm fpr]. rewrite I1. split; [apply FCall|reflexivity]. }
  destruct (solo_run 1 1 _ _ _ S2 (upd sh3 1 (FSt g1 (upd p1 1 (code (OLoad 7))))) (upd f3 1 (Some 1))) as (sh4 & R2 & E4 & O4); [apply upd_same|apply upd_same|].
  eexists _, (SF sh4 (upd f3 1 (Some 1))). split; [exists (SF z f0); split; [now repeat split|]|].
  { eapply steps_cons; [exact A0|]. eapply steps_cons; [exact A1|]. eapply steps_app; [exact R1|]. eapply steps_cons; [exact A2|]. eapply steps_cons; [exact A3|]. eapply steps_cons; [exact A4|]. exact R2. }
  cbn [concat app]. rewrite concat_app. cbn [concat app]. rewrite !concat_tag. split.
  - intros u i t Hc. cbn in Hc. destruct Hc as [Hc|[Hc|Hc]]; [discriminate|discriminate|]. apply in_app_or in Hc. destruct Hc as [Hc|[Hc|[Hc|Hc]]]; [exact (tag_clear _ _ _ _ _ _ C1 Hc)|discriminate|discriminate|exact (tag_clear _ _ _ _ _ _ C2 Hc)].
  - split; [do 2 right; apply in_or_app; right; do 2 right; exact (in_map (fun a => (1, tag 1 a)) _ _ L1)|].
    split; [do 2 right; apply in_or_app; right; now left|].
    split; [do 2 right; apply in_or_app; left; exact (in_map (fun a => (0, tag 1 a)) _ _ L3)|].
    split; [do 2 right; apply in_or_app; right; do 2 right; exact (in_map (fun a => (1, tag 1 a)) _ _ L2)|now left].
Qed.
Print Assumptions C115_no_race. Print Assumptions C115_happens_before. Print Assumptions C115_shard. Print Assumptions C115_clear_refuted. Print Assumptions C115_ex.
