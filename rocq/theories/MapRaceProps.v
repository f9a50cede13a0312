(** * C100: a Map has no data race, unless Clear is called *)
From Coq Require Import List Bool Arith Lia Permutation.
From Verif Require Import Trans RaceSpec RaceProofs MapConcSpec MapConcModel MapKeySpec MapFineModel MapRaceSpec MapRaceOk MapRaceProofs.
Import ListNotations.

Section Props.
Context {K V : Type} (geq : K -> K -> bool) (hashable : K -> bool).
Notation run := (exec (@finit K V) (fstep geq hashable)).

(** However many goroutines call the Map and however they are scheduled, of two accesses to m.read,
    m.dirty, m.misses, a map inside, an entry or a value, by two goroutines, of which one writes and
    not both go through sync/atomic, one happens before the other. *)
Theorem C100_no_race : forall tr s, run tr s -> (forall u t, ~ In (u, ALab (LCall t OClear)) (concat tr)) -> race_free (concat tr).
Proof. intros tr s Hr Hc. destruct (FI_exec geq hashable tr s Hr Hc) as (lks & Gs & Hi & _). eapply i_race; eauto. Qed.

(** A value that comes out of the Map, as a result or as an argument of a callback, was put in by
    something that happens before that: what the one goroutine did before it put the value in is
    visible to the other. *)
Theorem C100_happens_before : forall tr s j t a v, run tr s -> (forall u t, ~ In (u, ALab (LCall t OClear)) (concat tr)) ->
  nth_error (concat tr) j = Some (t, a) -> hands a v ->
  exists i u b, nth_error (concat tr) i = Some (u, b) /\ gives b v /\ hb (concat tr) i j.
Proof.
  intros tr s j t a v Hr Hc Hn Hh. destruct (FI_exec geq hashable tr s Hr Hc) as (lks & Gs & Hi & _).
  destruct (i_hands _ _ _ _ Hi _ _ _ _ Hn Hh) as (i & (u & b & Hi' & Hg) & Hb). exists i, u, b. auto.
Qed.

(** Clear assigns m.read while others use it through sync/atomic: with Clear there are data races,
    here one with Range. *)
Theorem C100_clear_refuted : ~ (forall tr s, run tr s -> race_free (concat tr)).
Proof.
  intros H.
  set (T := [(0, ALab (LCall 0 OClear)); (0, ALock); (0, AWr LRead false); (1, ALab (LCall 1 ORange)); (1, ARd LRead true)] : list (ev loc (label K V))).
  assert (Hr : race_free T).
  { eapply (H [[(0, ALab (LCall 0 OClear))]; [(0, ALock)]; [(0, AWr LRead false)]; [(1, ALab (LCall 1 ORange))]; [(1, ARd LRead true)]]).
    exists (FSt fmem0 (fun _ => IStop)). split; [now split|].
    eapply steps_cons; [apply (FStep geq hashable _ _ 0 [_]); apply (FCall geq hashable 0 _ OClear)|].
    eapply steps_cons; [apply (FStep geq hashable _ _ 0 [_]); cbn; apply FLock; reflexivity|].
    eapply steps_cons; [apply (FStep geq hashable _ _ 0 [_]); cbn; apply FZeroRead|].
    eapply steps_cons; [apply (FStep geq hashable _ _ 1 [_]); cbn; apply (FCall geq hashable 1 _ ORange)|].
    eapply steps_cons; [apply (FStep geq hashable _ _ 1 [_]); cbn; apply FLoadRead|]. apply steps_nil. }
  assert (Hh : forall i j, hb T i j -> (i < 3 /\ j < 3) \/ (3 <= i /\ 3 <= j)).
  { induction 1 as [i j t a b Hl Hi Hj|i j t u Hl Hi Hj|i j t u a b x Hl Hi Hj Ha Hw _ _ _|i j k _ IH1 _ IH2]; [| | |lia].
    - assert (j < 5) by (apply nth_lt in Hj; exact Hj).
      destruct i as [|[|[|[|[|i]]]]]; try lia; cbn in Hi; inversion Hi; subst; clear Hi;
        destruct j as [|[|[|[|[|j]]]]]; try lia; cbn in Hj; inversion Hj.
    - destruct i as [|[|[|[|[|i]]]]]; cbn in Hi; try discriminate. destruct i; discriminate.
    - destruct i as [|[|[|[|[|i]]]]]; cbn in Hi; try (inversion Hi; subst; cbn in Ha; try contradiction; try discriminate; destruct Hw as [[f Hw]|Hw]; discriminate).
      destruct i; discriminate. }
  assert (Hb : hb T 2 4).
  { eapply (Hr 2 4 0 1 _ _ LRead); try reflexivity; try lia.
    - right. left. eauto.
    - left. left. eauto.
    - left. left. eauto.
    - intros [E _]. discriminate. }
  apply Hh in Hb. lia.
Qed.
End Props.

(** ** A run: goroutine 0 stores 8 under 7, goroutine 1 loads it; they share m.read, m.dirty, the map
    object 0, the entry 0 and its value. *)
Ltac go t := eapply steps_cons; [apply (FStep _ _ _ _ t); cbn; first [apply (FLook Nat.eqb (fun _ => true)); reflexivity|eapply FIter; apply Permutation_refl|econstructor; reflexivity|econstructor]|cbn].
Example C100_ex : exists tr (s : fst_ nat nat), exec finit (fstep Nat.eqb (fun _ => true)) tr s /\
  (forall u t, ~ In (u, ALab (LCall t OClear)) (concat tr)) /\
  In (1, ALab (LRet 1 (OLoad 7) (Some 8, true))) (concat tr) /\
  In (0, AWr (LMap 0) false) (concat tr) /\ In (1, ARd (LMap 0) false) (concat tr) /\
  In (0, AWr (LEnt 0) false) (concat tr) /\ In (1, ARd (LEnt 0) true) (concat tr) /\
  In (0, AWr (LCell 0 0) false) (concat tr) /\ In (1, ARd (LCell 0 0) false) (concat tr).
Proof.
  eexists. eexists. split.
  - exists (FSt fmem0 (fun _ => IStop)). split; [now split|].
    eapply steps_cons; [apply (FStep _ _ _ _ 0); apply (FCall _ _ 0 _ (OStore 7 8))|cbn].
    do 19 go 0.
    eapply steps_cons; [apply (FStep _ _ _ _ 1); apply (FCall _ _ 1 _ (OLoad 7))|cbn].
    do 20 go 1. apply steps_nil.
  - cbn. split; [|tauto]. intros u t Hc. repeat (destruct Hc as [Hc|Hc]; [discriminate|]). contradiction.
Qed.
Print Assumptions C100_no_race.
Print Assumptions C100_happens_before.
Print Assumptions C100_clear_refuted.
