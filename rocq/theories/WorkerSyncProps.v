(** * C108: what a Worker's tasks did is visible to deferFunc, and with one slot to the next task *)
From Coq Require Import ZArith List Bool Lia Arith.
From Verif Require Import GoBase Trans XTaskModel SyncSpec SyncProofs SyncMore TaskSyncModel TaskSyncProps WorkerSyncModel.
Import ListNotations.
Open Scope nat_scope.

Section P.
Variables (size : nat) (ctxerr : Z).
(** Runs of a Worker with [size] slots, with their traces. *)
Notation wruns := (traced winit (worker_step size ctxerr) (worker_acts size)).
Notation truns := (traced sinit (task_step true ctxerr) task_acts).

(** ** Every task's Do is a run of Do *)
Lemma lift_pairs : forall t c a u b, pairs a u b -> pairs (lift_act t c a) (lift_gor t c u) (lift_act t c b).
Proof. intros t c a u b []; constructor. Qed.
Lemma task_simple : forall tr T s, truns tr T s -> forall i u a, nth_error T i = Some (u, a) -> simple a.
Proof.
  apply (traced_ind_inv sinit (task_step true ctxerr) task_acts (fun _ T _ => forall i u a, nth_error T i = Some (u, a) -> simple a)); [intros s _ [|i]; discriminate|].
  intros tr T s [l s1] s' _ IH [St _] i u a Hn. destruct (Nat.lt_ge_cases i (length T)) as [Hl|Hl]; [rewrite nth_error_app1 in Hn by auto; eauto|].
  rewrite nth_error_app2 in Hn by auto. apply nth_error_In in Hn. destruct l as [| |[]]; cbn [task_acts fst snd] in Hn; unfold do_tau in Hn;
    repeat match type of Hn with context [match ?d with _ => _ end] => destruct d end; cbn in Hn; intuition (try discriminate); match goal with X : _ = (u, a) |- _ => injection X as <- <-; exact I end.
Qed.
(** No event of E is something that is seen of Do for task t. *)
Definition others (t : nat) (E : list wev) : Prop := forall u l, ~ In (u, ALab (VDo t l)) E.
Definition onto (t : nat) (T : list ev) (T2 : list wev) (e : nat -> nat) : Prop :=
  forall k u l, nth_error T2 k = Some (u, ALab (VDo t l)) -> exists i g, nth_error T i = Some (g, ALab l) /\ e i = k.
Notation partof t c := (part (lift_gor t c) (lift_act t c)).
Lemma grow : forall t c T T2 e x A C, partof t c T T2 e -> onto t T T2 e -> others t A -> others t C ->
  exists e', partof t c (T ++ x) (T2 ++ A ++ map (lift t c) x ++ C) e' /\ onto t (T ++ x) (T2 ++ A ++ map (lift t c) x ++ C) e'.
Proof.
  intros t c T T2 e x A C P O HA HC. exists (grown T T2 (length A) e). split; [exact (part_grow _ _ _ _ _ x A C P)|].
  intros k u l Hk. destruct (Nat.lt_ge_cases k (length T2)) as [L1|L1].
  - rewrite nth_error_app1 in Hk by auto. destruct (O _ _ _ Hk) as (i & g & Hi & <-). exists i, g. split; [now apply nth_app_l|].
    unfold grown. now rewrite (proj2 (Nat.ltb_lt _ _) (nth_lt _ _ _ Hi)).
  - rewrite nth_error_app2 in Hk by auto. destruct (Nat.lt_ge_cases (k - length T2) (length A)) as [L2|L2].
    + rewrite nth_error_app1 in Hk by auto. apply nth_error_In in Hk. now apply HA in Hk.
    + rewrite nth_error_app2 in Hk by auto. destruct (Nat.lt_ge_cases (k - length T2 - length A) (length x)) as [L3|L3].
      * rewrite nth_error_app1 in Hk by (now rewrite map_length). rewrite nth_error_map in Hk. destruct (nth_error x (k - length T2 - length A)) as [[g a]|] eqn:E; [|discriminate].
        cbn in Hk. injection Hk as _ Ha. destruct a; try discriminate. exists (length T + (k - length T2 - length A)), g. split.
        -- rewrite nth_error_app2 by lia. replace (length T + (k - length T2 - length A) - length T) with (k - length T2 - length A) by lia. rewrite E.
           destruct b; cbn in Ha; try discriminate; injection Ha as <-; reflexivity.
        -- unfold grown. rewrite (proj2 (Nat.ltb_ge _ _)) by lia. lia.
      * rewrite nth_error_app2 in Hk by (now rewrite map_length). apply nth_error_In in Hk. now apply HC in Hk.
Qed.
Lemma others_nil : forall t, others t []. Proof. intros t u l []. Qed.
Lemma others_lift : forall t t1 c x, t1 <> t -> others t (map (lift t1 c) x).
Proof.
  intros t t1 c x Hd u l Hi. apply in_map_iff in Hi. destruct Hi as ([g a] & E & _). unfold lift in E. cbn in E. injection E as _ Ea.
  destruct a; try discriminate. destruct b; cbn in Ea; try discriminate; congruence.
Qed.
Lemma others_app : forall t A C, others t A -> others t C -> others t (A ++ C).
Proof. intros t A C HA HC u l Hi. apply in_app_or in Hi. destruct Hi; [eapply HA|eapply HC]; eauto. Qed.

Definition do_of (s : wstate) (t c : nat) : sys := match tk s t with TLive _ d => Sys (cdone s c) true d | _ => Sys (cdone s c) false d0 end.
Lemma task_of : forall tr T2 s, wruns tr T2 s -> forall t c, (forall c' d, tk s t = TLive c' d -> c' = c) ->
  exists tr' T e, truns tr' T (do_of s t c) /\ partof t c T T2 e /\ onto t T T2 e.
Proof.
  apply (traced_ind_inv winit (worker_step size ctxerr) (worker_acts size) (fun _ T2 s => forall t c, (forall c' d, tk s t = TLive c' d -> c' = c) ->
    exists tr' T e, truns tr' T (do_of s t c) /\ partof t c T T2 e /\ onto t T T2 e)).
  - intros s (_ & Hf & Hk) t c _. exists [], [], (fun i => i). split; [|split].
    + unfold do_of. rewrite Hk, Hf. now apply tr_nil.
    + constructor; [intros [|i]; discriminate|auto].
    + intros [|k]; discriminate.
  - intros tr T2 s [l s1] s' _ IH [St Es] t c Hc. cbn [fst snd] in St, Es. subst s1.
    assert (Hc0 : forall c' d, tk s t = TLive c' d -> c' = c).
    { intros c' d0 E. inversion St; subst; cbn [tk] in *; eauto; unfold upd in Hc; destruct (Nat.eqb_spec t0 t) as [Ee|Hd]; try subst t0; eauto; try congruence;
        eapply Hc; rewrite ?E; try congruence; f_equal; congruence. }
    destruct (IH t c Hc0) as (tr' & T & e & R & P & O).
    (* a step that does not concern this Do *)
    assert (Skip : others t (worker_acts size s (l, s')) -> do_of s' t c = do_of s t c ->
      exists tr' T e, truns tr' T (do_of s' t c) /\ partof t c T (T2 ++ worker_acts size s (l, s')) e /\ onto t T (T2 ++ worker_acts size s (l, s')) e).
    { intros Ho E. destruct (grow _ _ _ _ _ [] _ [] P O Ho (others_nil t)) as (e' & P' & O'). cbn [map] in P', O'. rewrite !app_nil_r in P', O'.
      exists tr', T, e'. rewrite E. auto. }
    (* a step of this Do *)
    assert (Do : forall l1 A C, others t A -> others t C -> worker_acts size s (l, s') = A ++ map (lift t c) (task_acts (do_of s t c) (l1, do_of s' t c)) ++ C -> sstep true ctxerr (do_of s t c) l1 (do_of s' t c) ->
      exists tr' T e, truns tr' T (do_of s' t c) /\ partof t c T (T2 ++ worker_acts size s (l, s')) e /\ onto t T (T2 ++ worker_acts size s (l, s')) e).
    { intros l1 A C HA HC E S1. destruct (grow _ _ _ _ _ (task_acts (do_of s t c) (l1, do_of s' t c)) A C P O HA HC) as (e' & P' & O'). rewrite E.
      exists (tr' ++ [(l1, do_of s' t c)]), (T ++ task_acts (do_of s t c) (l1, do_of s' t c)), e'. split; [|auto]. eapply tr_snoc; [exact R|]. split; auto. }
    inversion St; subst; cbn [worker_acts fst snd cdone tk] in *; unfold do_of in *; cbn [tk cdone] in *.
    + destruct (Nat.eqb_spec c0 c) as [->|Hd].
      * destruct (f c) eqn:Ef.
        -- apply Skip; [apply others_nil|]. unfold upd. rewrite Nat.eqb_refl. reflexivity.
        -- apply (Do LCancel [] []); [apply others_nil|apply others_nil|reflexivity|]. unfold upd. rewrite Nat.eqb_refl. destruct (k t); constructor.
      * apply Skip; [destruct (f c0); intros u x Hi; cbn in Hi; intuition discriminate|]. unfold upd. now rewrite (proj2 (Nat.eqb_neq _ _) Hd).
    + apply Skip; [intros u x Hi; cbn in Hi; intuition discriminate|]. unfold upd. destruct (Nat.eqb_spec t0 t) as [->|Hd]; [now rewrite H|reflexivity].
    + destruct (Nat.eqb_spec t0 t) as [->|Hd].
      * apply (Do LCall [(caller t, APut WSlots size); (caller t, ALab (VRun t)); (caller t, AGo (runner t))] []); [intros u x Hi; cbn in Hi; intuition discriminate|apply others_nil|reflexivity|].
        rewrite H. unfold upd. rewrite Nat.eqb_refl. constructor.
      * apply Skip; [intros u x Hi; cbn in Hi; intuition congruence|]. unfold upd. now rewrite (proj2 (Nat.eqb_neq _ _) Hd).
    + rewrite H in *. unfold upd in *. destruct (Nat.eqb_spec t0 t) as [->|Hd].
      * rewrite Nat.eqb_refl in *. rewrite H in *. assert (c0 = c) as -> by eauto. apply (Do (LD l0) [] (match l0 with DDeferEnd => [(runner t, AGet WSlots)] | _ => [] end));
          [apply others_nil|destruct l0; intros u x Hi; cbn in Hi; intuition discriminate|reflexivity|now constructor].
      * rewrite Nat.eqb_refl in *. apply Skip; [|reflexivity]. apply others_app; [now apply others_lift|]. destruct l0; intros u x Hi; cbn in Hi; intuition discriminate.
    + rewrite H in *. unfold upd in *. destruct (Nat.eqb_spec t0 t) as [->|Hd].
      * rewrite Nat.eqb_refl in *. rewrite H in *. assert (c0 = c) as -> by eauto. apply (Do (LD DDeferEnd) [] [(runner t, AGet WSlots)]);
          [apply others_nil|intros u x Hi; cbn in Hi; intuition discriminate|reflexivity|now constructor].
      * rewrite Nat.eqb_refl in *. apply Skip; [|reflexivity]. apply others_app; [now apply others_lift|]. intros u x Hi; cbn in Hi; intuition discriminate.
    + rewrite H in *. unfold upd in *. destruct (Nat.eqb_spec t0 t) as [->|Hd].
      * rewrite Nat.eqb_refl in *. rewrite H in *. assert (c0 = c) as -> by eauto. apply (Do (LD (DReturn (RPanic p))) [] []); [apply others_nil|apply others_nil|reflexivity|now constructor].
      * rewrite Nat.eqb_refl in *. apply Skip; [|reflexivity]. rewrite app_nil_r. now apply others_lift.
Qed.

(** ** Calls, slots and starts *)
Lemma app_lab : forall (T E : list wev) k u b, nth_error (T ++ E) k = Some (u, ALab b) -> nth_error T k = Some (u, ALab b) \/ length T <= k /\ nth_error E (k - length T) = Some (u, ALab b).
Proof.
  intros T E k u b H. destruct (Nat.lt_ge_cases k (length T)) as [L|L]; [left; now rewrite nth_error_app1 in H|right]. split; auto. now rewrite nth_error_app2 in H.
Qed.
Definition has_call (T : list wev) (t c : nat) : Prop := exists i, nth_error T i = Some (caller t, ALab (VCall t c)).
Record R (T : list wev) (s : wstate) : Prop := {
  r_call : forall t c, tk s t = TBlocked c \/ (exists d, tk s t = TLive c d) -> has_call T t c;
  r_run : forall k u t, nth_error T k = Some (u, ALab (VRun t)) -> u = caller t /\ (exists c d, tk s t = TLive c d) /\ exists i c, nth_error T i = Some (caller t, ALab (VCall t c)) /\ hb T i k;
  r_do : forall k u t, nth_error T k = Some (u, ALab (VDo t LCall)) -> u = runner t /\ exists i, nth_error T i = Some (caller t, ALab (VRun t)) /\ hb T i k;
  r_any : forall k u t l, nth_error T k = Some (u, ALab (VDo t l)) -> exists c d, tk s t = TLive c d
}.
Lemma has_app : forall T E t c, has_call T t c -> has_call (T ++ E) t c.
Proof. intros T E t c [i H]. exists i. now apply nth_app_l. Qed.
(** The block of a step of Do *)
Lemma do_block : forall s t d s' k u b, nth_error (worker_acts size s (WD t d, s')) k = Some (u, ALab b) -> (exists l, b = VDo t (LD l) /\ exists c x, tk s t = TLive c x).
Proof.
  intros s t d s' k u b H. cbn [worker_acts fst snd] in H. destruct (tk s t) as [| |c x] eqn:E; try (destruct k; discriminate). destruct (tk s' t) as [| |c' x']; try (destruct k; discriminate).
  destruct (Nat.lt_ge_cases k (length (map (lift t c) (task_acts (Sys (cdone s c) true x) (LD d, Sys (cdone s c) true x'))))) as [L|L].
  - rewrite nth_error_app1, nth_error_map in H by auto. destruct (nth_error (task_acts _ _) k) as [[g a]|] eqn:En; [|discriminate]. cbn in H. injection H as _ Ha. destruct a; try discriminate.
    destruct (new_lab _ _ _ _ _ _ _ eq_refl En) as (-> & _). injection Ha as <-. eauto.
  - rewrite nth_error_app2 in H by auto. destruct d; try (destruct (k - _) as [|[|]]; discriminate).
Qed.
Lemma R_all : forall tr T s, wruns tr T s -> R T s.
Proof.
  apply (traced_ind_inv winit (worker_step size ctxerr) (worker_acts size) (fun _ T s => R T s)).
  - intros s (_ & Hf & Hk). constructor; try (intros [|k]; discriminate). intros t c [E|[d E]]; rewrite Hk in E; discriminate.
  - intros tr T s [l s1] s' _ [Rc Rr Rd Ra] [St Es]. cbn [fst snd] in St, Es. subst s1.
    assert (Keep : forall t, (exists c d, tk s t = TLive c d) -> exists c d, tk s' t = TLive c d).
    { intros t (c & d & E). inversion St; subst; cbn [tk] in *; eauto; unfold upd; destruct (Nat.eqb_spec t0 t) as [->|Hd]; eauto; congruence. }
    assert (Or : forall k u t, nth_error T k = Some (u, ALab (VRun t)) -> u = caller t /\ (exists c d, tk s' t = TLive c d) /\
      exists i c, nth_error (T ++ worker_acts size s (l, s')) i = Some (caller t, ALab (VCall t c)) /\ hb (T ++ worker_acts size s (l, s')) i k).
    { intros k u t Hk. destruct (Rr _ _ _ Hk) as (Hu & Hl & i & c & Hi & Hh). split; auto. split; auto. exists i, c. split; [now apply nth_app_l|now apply hb_app]. }
    assert (Od : forall k u t, nth_error T k = Some (u, ALab (VDo t LCall)) -> u = runner t /\ exists i, nth_error (T ++ worker_acts size s (l, s')) i = Some (caller t, ALab (VRun t)) /\ hb (T ++ worker_acts size s (l, s')) i k).
    { intros k u t Hk. destruct (Rd _ _ _ Hk) as (Hu & i & Hi & Hh). split; auto. exists i. split; [now apply nth_app_l|now apply hb_app]. }
    assert (Oc : forall t c, tk s t = TBlocked c \/ (exists d, tk s t = TLive c d) -> has_call (T ++ worker_acts size s (l, s')) t c) by (intros; apply has_app; auto).
    destruct l as [c0|t0 c0|t0|t0 d0].
    + assert (Nl : forall k u b, nth_error (worker_acts size s (WCancel c0, s')) k = Some (u, ALab b) -> b = VCancel c0).
      { intros k u b. cbn. destruct (cdone s c0); [destruct k; discriminate|]. destruct k as [|[|[|k]]]; cbn; intros X; try discriminate. now injection X as _ <-. }
      assert (Et : tk s' = tk s) by (inversion St; reflexivity). constructor.
      * now rewrite Et.
      * intros k u t Hk. apply app_lab in Hk. destruct Hk as [Hk|[_ Hk]]; [auto|apply Nl in Hk; discriminate].
      * intros k u t Hk. apply app_lab in Hk. destruct Hk as [Hk|[_ Hk]]; [auto|apply Nl in Hk; discriminate].
      * intros k u t x Hk. apply app_lab in Hk. destruct Hk as [Hk|[_ Hk]]; [eauto|apply Nl in Hk; discriminate].
    + assert (Nl : forall k u b, nth_error (worker_acts size s (WCall t0 c0, s')) k = Some (u, ALab b) -> b = VCall t0 c0).
      { intros k u b. cbn. destruct k as [|[|k]]; cbn; intros X; try discriminate. now injection X as _ <-. }
      inversion St; subst; cbn [tk] in *. constructor; cbn [tk].
      * intros t c E. unfold upd in E. destruct (Nat.eqb_spec t0 t) as [->|Hd]; [|auto].
        assert (c0 = c) as -> by (destruct E as [E|[d E]]; [congruence|discriminate]). exists (length T). apply nth_last.
      * intros k0 u t Hk. apply app_lab in Hk. destruct Hk as [Hk|[_ Hk]]; [auto|apply Nl in Hk; discriminate].
      * intros k0 u t Hk. apply app_lab in Hk. destruct Hk as [Hk|[_ Hk]]; [auto|apply Nl in Hk; discriminate].
      * intros k0 u t x Hk. apply app_lab in Hk. destruct Hk as [Hk|[_ Hk]]; [eauto|apply Nl in Hk; discriminate].
    + inversion St as [| |n f k t1 c H H0| | |]; subst; cbn [tk worker_acts fst] in *.
      destruct (Rc t0 c) as (i0 & Hi0); [auto|]. set (E := [(caller t0, APut WSlots size); (caller t0, ALab (VRun t0)); (caller t0, AGo (runner t0)); (runner t0, ALab (VDo t0 LCall))] : list wev) in *.
      assert (N1 : nth_error (T ++ E) (S (length T)) = Some (caller t0, ALab (VRun t0))) by (rewrite nth_error_app2 by lia; now replace (S (length T) - length T) with 1 by lia).
      assert (N2 : nth_error (T ++ E) (S (S (length T))) = Some (caller t0, AGo (runner t0))) by (rewrite nth_error_app2 by lia; now replace (S (S (length T)) - length T) with 2 by lia).
      assert (N3 : nth_error (T ++ E) (S (S (S (length T)))) = Some (runner t0, ALab (VDo t0 LCall))) by (rewrite nth_error_app2 by lia; now replace (S (S (S (length T))) - length T) with 3 by lia).
      assert (L0 : exists c' d, upd k t0 (TLive c XTaskModel.d0) t0 = TLive c' d) by (unfold upd; rewrite Nat.eqb_refl; eauto).
      constructor; cbn [tk].
      * intros t c' Hx. unfold upd in Hx. destruct (Nat.eqb_spec t0 t) as [->|Hd]; [|auto]. apply Oc. left. destruct Hx as [Hx|[d Hx]]; [discriminate|congruence].
      * intros j u t Hj. destruct (app_lab _ _ _ _ _ Hj) as [Hk|[Hl Hk]]; [auto|]. destruct (j - length T) as [|[|[|[|[|m]]]]] eqn:Em; cbn in Hk; try discriminate. injection Hk as <- <-.
        split; auto. split; auto. assert (j = S (length T)) as -> by lia. exists i0, c. split; [now apply nth_app_l|]. eapply hb_po; [|apply nth_app_l; exact Hi0|exact N1]. apply nth_lt in Hi0. lia.
      * intros j u t Hj. destruct (app_lab _ _ _ _ _ Hj) as [Hk|[Hl Hk]]; [auto|]. destruct (j - length T) as [|[|[|[|[|m]]]]] eqn:Em; cbn in Hk; try discriminate. injection Hk as <- <-.
        split; auto. assert (j = S (S (S (length T)))) as -> by lia. exists (S (length T)). split; auto.
        eapply hb_tr; [eapply hb_po; [|exact N1|exact N2]; lia|]. eapply hb_sync; [|exact N2|exact N3|constructor]. lia.
      * intros j u t x Hj. destruct (app_lab _ _ _ _ _ Hj) as [Hk|[Hl Hk]]; [eauto|]. destruct (j - length T) as [|[|[|[|[|m]]]]] eqn:Em; cbn in Hk; try discriminate. injection Hk as <- <- <-. auto.
    + assert (Et : forall t c, tk s' t = TBlocked c \/ (exists d, tk s' t = TLive c d) -> tk s t = TBlocked c \/ exists d, tk s t = TLive c d).
      { intros t c E. inversion St; subst; cbn [tk] in *; unfold upd in E; destruct (Nat.eqb_spec t0 t) as [->|Hd]; auto; destruct E as [E|[x E]]; try discriminate; injection E as <- <-; eauto. }
      constructor.
      * eauto.
      * intros k u t Hk. apply app_lab in Hk. destruct Hk as [Hk|[_ Hk]]; [auto|apply do_block in Hk; destruct Hk as (? & ? & _); discriminate].
      * intros k u t Hk. apply app_lab in Hk. destruct Hk as [Hk|[_ Hk]]; [auto|apply do_block in Hk; destruct Hk as (? & ? & _); discriminate].
      * intros k u t x Hk. apply app_lab in Hk. destruct Hk as [Hk|[_ Hk]]; [eauto|apply do_block in Hk; destruct Hk as (y & E & Hl); injection E as -> ->; eauto].
Qed.
(** In which goroutine of Do a label is *)
Lemma do_gor : forall tr T s, truns tr T s -> forall i g b, nth_error T i = Some (g, ALab b) ->
  g = match b with LCancel => 2 | LD DStart | LD (DRet _) | LD (DPanic _) | LD DVanish => 1 | _ => 0 end.
Proof.
  apply (traced_ind_inv sinit (task_step true ctxerr) task_acts (fun _ T _ => forall i g b, nth_error T i = Some (g, ALab b) ->
    g = match b with LCancel => 2 | LD DStart | LD (DRet _) | LD (DPanic _) | LD DVanish => 1 | _ => 0 end)); [intros s _ [|i]; discriminate|].
  intros tr T s [l s1] s' _ IH _ i g b Hn. destruct (Nat.lt_ge_cases i (length T)) as [Hl|Hl]; [rewrite nth_error_app1 in Hn by auto; eauto|].
  rewrite nth_error_app2 in Hn by auto. destruct (new_lab _ _ _ _ _ _ _ eq_refl Hn) as (-> & Hk & Hd). rewrite Hk in Hn.
  destruct l as [| |[]]; cbn in Hn; try congruence; now injection Hn as <-.
Qed.
(** A label of Do in the whole trace, in the run of that Do *)
Lemma find_do : forall tr T2 s k u t l, wruns tr T2 s -> nth_error T2 k = Some (u, ALab (VDo t l)) ->
  exists c x tr' T e i g, tk s t = TLive c x /\ truns tr' T (do_of s t c) /\ partof t c T T2 e /\ nth_error T i = Some (g, ALab l) /\ e i = k /\ u = lift_gor t c g /\
    forall a b, hb T a b -> hb T2 (e a) (e b).
Proof.
  intros tr T2 s k u t l H Hk. destruct (r_any _ _ (R_all _ _ _ H) _ _ _ _ Hk) as (c & x & Ht).
  destruct (task_of _ _ _ H t c) as (tr' & T & e & Hr & P & O); [intros c' d E; congruence|].
  destruct (O _ _ _ Hk) as (i & g & Hi & <-). exists c, x, tr', T, e, i, g. repeat (split; [assumption|]). split; [reflexivity|]. split.
  - pose proof (pt_nth _ _ _ _ _ P _ _ _ Hi) as Hn. rewrite Hk in Hn. congruence.
  - intros a b Hh. eapply hb_part; eauto; [apply lift_pairs|eapply task_simple; eauto].
Qed.

(** A task starts after Run has been called for it and has got a slot. *)
Theorem C108_start : forall tr T s k u t, wruns tr T s -> nth_error T k = Some (u, ALab (VDo t (LD DStart))) ->
  u = doer t /\ exists i0 i c, nth_error T i0 = Some (caller t, ALab (VCall t c)) /\ nth_error T i = Some (caller t, ALab (VRun t)) /\ hb T i0 i /\ hb T i k.
Proof.
  intros tr T s k u t H Hk. destruct (find_do _ _ _ _ _ _ _ H Hk) as (c & x & tr' & T' & e & i & g & Ht & Hr & P & Hi & <- & -> & Hh).
  pose proof (do_gor _ _ _ Hr _ _ _ Hi) as ->. split; [reflexivity|]. destruct (C106_start _ _ _ _ _ _ Hr Hi) as (j & Hj & Hb).
  pose proof (pt_nth _ _ _ _ _ P _ _ _ Hj) as Hj2. destruct (r_do _ _ (R_all _ _ _ H) _ _ _ Hj2) as (_ & i1 & H1 & Hb1).
  destruct (r_run _ _ (R_all _ _ _ H) _ _ _ H1) as (_ & _ & i0 & c0 & H0 & Hb0). exists i0, i1, c0. repeat (split; [assumption|]). eapply hb_tr; eauto.
Qed.
(** Event i is an end of task t, or the end of its ctx. *)
Definition task_over (T : list wev) (i t : nat) : Prop :=
  (exists o, nth_error T i = Some (doer t, ALab (VDo t (do_ends o)))) \/
  exists c, has_call T t c /\ nth_error T i = Some (canceller c, ALab (VCancel c)).
Lemma over_gen : forall tr T s k u t l, l = DDefer \/ l = DDeferEnd -> wruns tr T s -> nth_error T k = Some (u, ALab (VDo t (LD l))) -> u = runner t /\ exists i, task_over T i t /\ hb T i k.
Proof.
  intros tr T s k u t l Hl H Hk. destruct (find_do _ _ _ _ _ _ _ H Hk) as (c & x & tr' & T' & e & i & g & Ht & Hr & P & Hi & <- & -> & Hh).
  pose proof (do_gor _ _ _ Hr _ _ _ Hi) as Hg. assert (g = 0) as -> by (destruct Hl as [->| ->]; auto). split; [reflexivity|].
  assert (X : exists o j, cause ctxerr T' j o /\ hb T' j i).
  { destruct Hl as [->| ->]; [destruct (n_def _ _ _ (N_all _ _ _ _ _ Hr) _ Hi) as (o & j & _ & C & Hb)|destruct (n_dend _ _ _ (N_all _ _ _ _ _ Hr) _ Hi) as (o & j & _ & C & Hb)]; eauto. }
  destruct X as (o & j & C & Hb). exists (e j). split; [|auto]. destruct C as [C|[_ C]]; pose proof (pt_nth _ _ _ _ _ P _ _ _ C) as Cn.
  - left. exists o. rewrite Cn. destruct o; reflexivity.
  - right. exists c. split; [|exact Cn]. apply (r_call _ _ (R_all _ _ _ H)). eauto.
Qed.
(** deferFunc runs after the task has ended, or after its ctx has. *)
Theorem C108_defer : forall tr T s k u t, wruns tr T s -> nth_error T k = Some (u, ALab (VDo t (LD DDefer))) -> u = runner t /\ exists i, task_over T i t /\ hb T i k.
Proof. intros tr T s k u t H Hk. exact (over_gen _ _ _ _ _ _ _ (or_introl eq_refl) H Hk). Qed.

(** ** One slot *)
Lemma nth_two : forall {A} (T : list A) a x E, nth_error ((T ++ [a]) ++ x :: E) (S (length T)) = Some x.
Proof. intros A T a x E. replace (S (length T)) with (length (T ++ [a])) by (rewrite app_length; cbn; lia). now rewrite nth_error_app2, Nat.sub_diag. Qed.
Lemma len_one : forall {A} (T : list A) a, length (T ++ [a]) = S (length T).
Proof. intros. rewrite app_length. cbn. lia. Qed.
Hypothesis one : size = 1.
(** The goroutine of the task has given its slot back. *)
Definition freed (d : dstate) : Prop := match cpc d with CRet _ | CDone _ => True | _ => False end.
Record W1 (T : list wev) (s : wstate) : Prop := {
  w_slot : cnt s = 0 /\ (forall t c d, tk s t = TLive c d -> freed d) \/ cnt s = 1 /\ exists t, forall t' c d, tk s t' = TLive c d -> freed d \/ t' = t;
  w_cnt : exists n, counts (gets WSlots) T n /\ counts (puts WSlots) T (n + cnt s) /\
    forall t c d, tk s t = TLive c d -> freed d -> exists i, nth_error T i = Some (runner t, ALab (VDo t (LD DDeferEnd))) /\ lastop WSlots T (cnt s) n i;
  w_run : forall i k t t' u u', i < k -> nth_error T i = Some (u, ALab (VRun t)) -> nth_error T k = Some (u', ALab (VRun t')) ->
    exists j, nth_error T j = Some (runner t, ALab (VDo t (LD DDeferEnd))) /\ hb T j k
}.
Lemma lift_quiet : forall t c s l u a, In (u, a) (map (lift t c) (task_acts s l)) -> ~ gets WSlots a /\ ~ puts WSlots a.
Proof.
  intros t c s l u a Hi. apply in_map_iff in Hi. destruct Hi as ([g b] & E & _). unfold lift in E. injection E as _ <-. cbn [snd].
  split; [destruct b; cbn; try discriminate; destruct c0; discriminate|]. intros [n X]. destruct b; try discriminate X. destruct c0; discriminate X.
Qed.
Lemma W1_all : forall tr T s, wruns tr T s -> W1 T s.
Proof.
  apply (traced_ind_inv winit (worker_step size ctxerr) (worker_acts size) (fun _ T s => W1 T s)).
  - intros s (E & Hf & Hk). constructor.
    + left. split; [now rewrite E|]. intros t c d X. rewrite Hk in X. discriminate.
    + exists 0. rewrite E. cbn [cnt]. split; [constructor|]. split; [constructor|]. intros t c d X. cbn in X. rewrite Hk in X. discriminate.
    + intros i [|k] t t' u u' _ _; discriminate.
  - intros tr T s [l s1] s' Hr [Ws (n & Cg & Cp & Cf) Wr] [St Es]. cbn [fst snd] in St, Es. subst s1. pose proof (R_all _ _ _ Hr) as R0.
    (* steps that leave the slots alone *)
    assert (Calm : forall s', (forall u a, In (u, a) (worker_acts size s (l, s')) -> ~ gets WSlots a /\ ~ puts WSlots a) -> (forall k u t, nth_error (worker_acts size s (l, s')) k <> Some (u, ALab (VRun t))) ->
      cnt s' = cnt s -> (forall t c d, tk s' t = TLive c d -> exists d0, tk s t = TLive c d0 /\ (freed d0 <-> freed d)) -> W1 (T ++ worker_acts size s (l, s')) s').
    { intros s2 Hq Hn Ec Hk. constructor.
      - rewrite Ec. destruct Ws as [[E0 X]|[E1 (t & X)]]; [left|right]; split; auto.
        + intros t c d Ht. destruct (Hk _ _ _ Ht) as (d1 & H1 & F). apply F. eauto.
        + exists t. intros t' c d Ht. destruct (Hk _ _ _ Ht) as (d1 & H1 & F). rewrite <- F. eauto.
      - exists n. rewrite Ec. split; [apply counts_quiet; [intros t a Hi; now apply Hq in Hi|auto]|]. split; [apply counts_quiet; [intros t a Hi; now apply Hq in Hi|auto]|].
        intros t c d Ht F. destruct (Hk _ _ _ Ht) as (d1 & H1 & F1). apply F1 in F. destruct (Cf _ _ _ H1 F) as (i & Hi & Ho). exists i. split; [now apply nth_app_l|now apply lastop_app].
      - intros i k t t' u u' Hl Hi Hj. apply app_lab in Hi, Hj. destruct Hi as [Hi|[_ Hi]]; [|now apply Hn in Hi]. destruct Hj as [Hj|[_ Hj]]; [|now apply Hn in Hj].
        destruct (Wr _ _ _ _ _ _ Hl Hi Hj) as (j & Hj' & Hh). exists j. split; [now apply nth_app_l|now apply hb_app]. }
    destruct l as [c0|t0 c0|t0|t0 l0].
    + apply Calm.
      * intros u a. cbn. destruct (cdone s c0); intros Hi; [destruct Hi|]. destruct Hi as [Hi|[Hi|[]]]; injection Hi as <- <-; (split; [discriminate|intros [m X]; discriminate]).
      * intros k u t. cbn. destruct (cdone s c0); [destruct k; discriminate|destruct k as [|[|[|k]]]; discriminate].
      * now inversion St.
      * intros t c d Ht. inversion St; subst; cbn [tk] in *. exists d. tauto.
    + apply Calm.
      * intros u a Hi. cbn in Hi. destruct Hi as [Hi|[]]; injection Hi as <- <-; (split; [discriminate|intros [m X]; discriminate]).
      * intros k u t. cbn. destruct k as [|[|k]]; discriminate.
      * now inversion St.
      * intros t c d Ht. inversion St; subst; cbn [tk] in *. unfold upd in Ht. destruct (Nat.eqb_spec t0 t) as [->|Hd]; [discriminate|]. exists d. tauto.
    + inversion St as [| |n0 f k t1 c Ht Hn| | |]; subst s s' t1. cbn [tk cnt cdone] in *. assert (n0 = 0) as -> by lia. cbn [worker_acts fst]. rewrite one.
      destruct Ws as [[_ Free]|[? _]]; [|discriminate]. rewrite Nat.add_0_r in Cp.
      set (E := [(caller t0, ALab (VRun t0)); (caller t0, AGo (runner t0)); (runner t0, ALab (VDo t0 LCall))] : list wev).
      change (T ++ _ :: _) with (T ++ [(caller t0, APut WSlots 1)] ++ E). rewrite app_assoc.
      assert (Q : kth (puts WSlots) (T ++ [(caller t0, APut WSlots 1)]) n (length T)) by (apply kth_last; [auto|now exists 1]).
      constructor; cbn [tk cnt].
      * right. split; auto. exists t0. intros t' c' d Hx. unfold upd in Hx. destruct (Nat.eqb_spec t0 t') as [->|Hd]; eauto.
      * exists n. split; [apply counts_quiet; [|apply c_no; [auto|discriminate]]|split; [apply counts_quiet; [|rewrite Nat.add_1_r; apply c_yes; [auto|now exists 1]]|]].
        -- intros t a Hi. cbn in Hi. destruct Hi as [Hi|[Hi|[Hi|[]]]]; injection Hi as <- <-; discriminate.
        -- intros t a Hi. cbn in Hi. destruct Hi as [Hi|[Hi|[Hi|[]]]]; injection Hi as <- <-; intros [m X]; discriminate.
        -- intros t c' d Hx F. unfold upd in Hx. destruct (Nat.eqb_spec t0 t) as [->|Hd]; [injection Hx as <- <-; destruct F|].
           destruct (Cf _ _ _ Hx F) as (i & Hi & Ho). exists i. split; [now apply nth_app_l, nth_app_l|]. exists (length T). split; [now apply kth_app|]. right. apply hb_app. eapply lastop_put; eauto.
      * intros i k0 t t' u u' Hl Hi Hj. assert (Ni : nth_error E 0 = Some (caller t0, ALab (VRun t0))) by reflexivity.
        assert (N1 : nth_error ((T ++ [(caller t0, APut WSlots 1)]) ++ E) (length T) = Some (caller t0, APut WSlots 1)) by (apply nth_app_l, nth_last).
        assert (N2 : nth_error ((T ++ [(caller t0, APut WSlots 1)]) ++ E) (S (length T)) = Some (caller t0, ALab (VRun t0))).
        { apply nth_two. }
        assert (Pos : forall k u t, nth_error ((T ++ [(caller t0, APut WSlots 1)]) ++ E) k = Some (u, ALab (VRun t)) -> nth_error T k = Some (u, ALab (VRun t)) \/ k = S (length T) /\ t = t0).
        { clear - one. intros k u t Hk. apply app_lab in Hk. destruct Hk as [Hk|[Hl Hk]].
          - apply app_lab in Hk. destruct Hk as [Hk|[_ Hk]]; [now left|]. destruct (k - length T) as [|[|m]]; discriminate.
          - rewrite len_one in Hl, Hk. destruct (k - S (length T)) as [|[|[|[|m]]]] eqn:Em; cbn in Hk; try discriminate. injection Hk as <- <-. right. split; auto. lia. }
        destruct (Pos _ _ _ Hi) as [Hi'|[-> ->]].
        -- destruct (Pos _ _ _ Hj) as [Hj'|[-> ->]].
           ++ destruct (Wr _ _ _ _ _ _ Hl Hi' Hj') as (j & Hj2 & Hh). exists j. split; [now apply nth_app_l, nth_app_l|now apply hb_app, hb_app].
           ++ destruct (r_run _ _ R0 _ _ _ Hi') as (_ & (c' & d & Hx) & _). cbn [tk] in Hx. destruct (Cf _ _ _ Hx (Free _ _ _ Hx)) as (j & Hj' & Ho).
              exists j. split; [now apply nth_app_l, nth_app_l|]. eapply hb_tr; [apply hb_app; eapply lastop_put; eauto|]. eapply hb_po; [|exact N1|exact N2]. lia.
        -- destruct (Pos _ _ _ Hj) as [Hj'|[-> ->]]; [apply nth_lt in Hj'|]; lia.
    + destruct (match l0 with DDeferEnd => true | _ => false end) eqn:El.
      * assert (l0 = DDeferEnd) as -> by (destruct l0; try discriminate; auto).
        inversion St as [| | |? ? ? ? ? ? ? ? ? ? Hno|n0 f k t1 c d d' Ht Hd|]; [now destruct Hno|]. subst s s' t1. cbn [tk cnt cdone] in *.
        destruct Ws as [[? _]|[Hn1 (tt & Only)]]; [discriminate|]. assert (n0 = 0) as -> by lia. inversion Hd; subst d d'.
        assert (tt = t0) as -> by (destruct (Only _ _ _ Ht) as [F|E]; [destruct F|auto]).
        cbn [worker_acts fst snd tk cdone]. unfold upd at 1. rewrite Ht, Nat.eqb_refl. cbn [task_acts fst map lift lift_gor lift_act lift_lab snd app].
        set (a1 := (runner t0, ALab (VDo t0 (LD DDeferEnd))) : wev). change (T ++ [_; _]) with (T ++ [a1] ++ [(runner t0, AGet WSlots)]). rewrite app_assoc.
        assert (Cg1 : counts (gets WSlots) (T ++ [a1]) n) by (apply c_no; [auto|discriminate]).
        assert (Cp1 : counts (puts WSlots) (T ++ [a1]) (n + 1)) by (apply c_no; [auto|intros [m X]; discriminate]).
        assert (Q : kth (gets WSlots) ((T ++ [a1]) ++ [(runner t0, AGet WSlots)]) n (length (T ++ [a1]))) by (apply kth_last; [auto|reflexivity]).
        constructor; cbn [tk cnt].
        -- left. split; auto. intros t c' d Hx. unfold upd in Hx. destruct (Nat.eqb_spec t0 t) as [->|Hd']; [injection Hx as <- <-; exact I|].
           destruct (Only _ _ _ Hx) as [F|E]; [auto|congruence].
        -- exists (S n). split; [apply c_yes; [auto|reflexivity]|]. split; [apply c_no; [replace (S n + 0) with (n + 1) by lia; auto|intros [m X]; discriminate]|].
           intros t c' d Hx F. unfold upd in Hx. destruct (Nat.eqb_spec t0 t) as [->|Hd'].
           ++ exists (length T). split; [apply nth_app_l, nth_last|]. exists n, (length (T ++ [a1])). split; auto. split; auto. right. apply seen_next. unfold a1. apply seen_here.
           ++ destruct (Cf _ _ _ Hx F) as (i & Hi & Ho). exists i. split; [now apply nth_app_l, nth_app_l|]. exists n, (length (T ++ [a1])). split; auto. split; auto. right.
              eapply lastop_get; [eauto|]. apply lastop_app. exact Ho.
        -- intros i k0 t t' u u' Hl Hi Hj. assert (Pos : forall k u t, nth_error ((T ++ [a1]) ++ [(runner t0, AGet WSlots)]) k = Some (u, ALab (VRun t)) -> nth_error T k = Some (u, ALab (VRun t))).
           { clear. intros k u t Hk. apply app_lab in Hk. destruct Hk as [Hk|[_ Hk]]; [|destruct (k - _) as [|[|m]]; discriminate]. apply app_lab in Hk. destruct Hk as [Hk|[_ Hk]]; [auto|destruct (k - _) as [|[|m]]; discriminate]. }
           destruct (Wr _ _ _ _ _ _ Hl (Pos _ _ _ Hi) (Pos _ _ _ Hj)) as (j & Hj2 & Hh). exists j. split; [now apply nth_app_l, nth_app_l|now apply hb_app, hb_app].
      * apply Calm.
        -- intros u a. cbn [worker_acts fst snd]. destruct (tk s t0) as [| |c x]; try (intros []). destruct (tk s' t0) as [| |c' x']; try (intros []).
           replace (match l0 with DDeferEnd => _ | _ => _ end) with (@nil wev) by (destruct l0; auto; discriminate). rewrite app_nil_r. apply lift_quiet.
        -- intros k u t Hk. apply do_block in Hk. destruct Hk as (? & ? & _). discriminate.
        -- inversion St; subst; cbn [cnt]; auto. discriminate.
        -- intros t c d Ht. assert (Fr : forall x d1 d2, dstep true ctxerr x d1 l0 d2 -> freed d1 <-> freed d2) by (intros x d1 d2 Hd; inversion Hd; subst; try discriminate; unfold freed; cbn [cpc]; tauto).
           inversion St; subst; cbn [tk] in *; try discriminate El; unfold upd in Ht; (destruct (Nat.eqb_spec t0 t) as [->|Hd']; [injection Ht as <- <-; eauto|exists d; tauto]).
Qed.
End P.

(** With one slot a Run gets it only after the deferFunc of every task before it has returned, and that happens before. *)
Theorem C108_one : forall ctxerr tr T s i k t t' u u', traced winit (worker_step 1 ctxerr) (worker_acts 1) tr T s -> i < k ->
  nth_error T i = Some (u, ALab (VRun t)) -> nth_error T k = Some (u', ALab (VRun t')) ->
  exists j, nth_error T j = Some (runner t, ALab (VDo t (LD DDeferEnd))) /\ hb T j k.
Proof. intros ctxerr tr T s i k t t' u u' H. exact (w_run _ _ (W1_all 1 ctxerr eq_refl _ _ _ H) i k t t' u u'). Qed.
(** So a task starts after every task before it has ended, unless the ctx of that one has ended: what tasks share then needs no lock. *)
Theorem C108_one_task : forall ctxerr tr T s k u t', traced winit (worker_step 1 ctxerr) (worker_acts 1) tr T s -> nth_error T k = Some (u, ALab (VDo t' (LD DStart))) ->
  exists i', nth_error T i' = Some (caller t', ALab (VRun t')) /\ hb T i' k /\
    forall i t v, i < i' -> nth_error T i = Some (v, ALab (VRun t)) -> exists j, task_over T j t /\ hb T j k.
Proof.
  intros ctxerr tr T s k u t' H Hk. destruct (C108_start _ _ _ _ _ _ _ _ H Hk) as (_ & i0 & i' & c & _ & Hi & _ & Hh). exists i'. split; auto. split; auto.
  intros i t v Hl Ht. destruct (C108_one _ _ _ _ _ _ _ _ _ _ H Hl Ht Hi) as (j & Hj & Hb). destruct (over_gen _ _ _ _ _ _ _ _ _ (or_intror eq_refl) H Hj) as (_ & j' & Ho & Hb').
  exists j'. split; auto. eapply hb_tr; [exact Hb'|]. eapply hb_tr; eauto.
Qed.
Print Assumptions C108_start.
Print Assumptions C108_defer.
Print Assumptions C108_one.
Print Assumptions C108_one_task.

Ltac onward H c := let H' := fresh in let G := fresh in
  (match type of H with traced _ ?st _ _ _ ?s => eassert (G : st s (_, _) _) by (split; cbn [fst snd]; [c|reflexivity]) end); pose proof (tr_snoc _ _ _ _ _ _ _ _ H G) as H'; clear H G; rename H' into H.
(** One slot, two tasks; the ctx of the first ends while it runs.  Then the second starts, and nothing orders the two, although the
    first has returned by then: what they share needs a lock. *)
Theorem C108_cancel_witness : exists tr T s i k, traced winit (worker_step 1 9%Z) (worker_acts 1) tr T s /\ i < k /\
  nth_error T i = Some (doer 0, ALab (VDo 0 (LD (DRet None)))) /\ nth_error T k = Some (doer 1, ALab (VDo 1 (LD DStart))) /\ ~ hb T i k.
Proof.
  assert (H : traced winit (worker_step 1 9%Z) (worker_acts 1) [] [] (WSt 0 (fun _ => false) (fun _ => TNone) false)) by (apply tr_nil; repeat split).
  onward H ltac:(apply (WSCall 1 9%Z _ _ _ 0 0); reflexivity).
  onward H ltac:(eapply (WSAcquire 1 9%Z _ _ _ 0); [reflexivity|lia]).
  onward H ltac:(eapply (WSDo 1 9%Z _ _ _ 0); [reflexivity|eapply SCheckOk; reflexivity|discriminate|discriminate]).
  onward H ltac:(eapply (WSDo 1 9%Z _ _ _ 0); [reflexivity|eapply SSpawn|discriminate|discriminate]).
  onward H ltac:(eapply (WSDo 1 9%Z _ _ _ 0); [reflexivity|eapply SStart|discriminate|discriminate]).
  onward H ltac:(eapply (WSCancel 1 9%Z _ _ _ 0)).
  onward H ltac:(eapply (WSDo 1 9%Z _ _ _ 0); [reflexivity|eapply SSelCtx; reflexivity|discriminate|discriminate]).
  onward H ltac:(eapply (WSDo 1 9%Z _ _ _ 0); [reflexivity|eapply SDefer; reflexivity|discriminate|discriminate]).
  onward H ltac:(eapply (WSRelease 1 9%Z _ _ _ 0); [reflexivity|eapply SDeferEnd]).
  onward H ltac:(apply (WSCall 1 9%Z _ _ _ 1 1); reflexivity).
  onward H ltac:(eapply (WSAcquire 1 9%Z _ _ _ 1); [reflexivity|lia]).
  onward H ltac:(eapply (WSDo 1 9%Z _ _ _ 1); [reflexivity|eapply SCheckOk; reflexivity|discriminate|discriminate]).
  onward H ltac:(eapply (WSDo 1 9%Z _ _ _ 1); [reflexivity|eapply SSpawn|discriminate|discriminate]).
  onward H ltac:(eapply (WSDo 1 9%Z _ _ _ 0); [reflexivity|eapply SRet with (e := None)|discriminate|discriminate]).
  onward H ltac:(eapply (WSDo 1 9%Z _ _ _ 1); [reflexivity|eapply SStart|discriminate|discriminate]).
  match type of H with traced _ _ _ _ ?x _ => let y := eval cbv in x in change x with y in H end.
  match type of H with traced _ _ _ _ ?x _ => set (T := x) in H end.
  eexists _, T, _, 19, 20. split; [exact H|]. split; [lia|]. split; [reflexivity|]. split; [reflexivity|]. clear H.
  intros Hh. assert (X : forall i j, hb T i j -> i = 19 -> False).
  { clear Hh. intros i j Hh. induction Hh as [i j t a b Hl Hi Hj|i j t u a b Hl Hi Hj Hp|i j t u a b x Hl Hi Hj Ha Hw _ _ _|i j c k Hl ((t & a & Hi & c9 & ->) & _)|i j c k n9 u Hl ((t & a & Hi & ->) & _)|]; intros ->; auto; try discriminate.
    - injection Hi as <- <-. assert (j = 20) as -> by (apply nth_lt in Hj; cbn in Hj; lia). discriminate.
    - injection Hi as <- <-. inversion Hp.
    - injection Hi as <- <-. destruct Ha. }
  exact (X _ _ Hh eq_refl).
Qed.
Print Assumptions C108_cancel_witness.

(** A run in which the first task ends and then the second starts. *)
Example C108_ex : exists tr T s i i' k, traced winit (worker_step 1 9%Z) (worker_acts 1) tr T s /\ i < i' /\
  nth_error T i = Some (caller 0, ALab (VRun 0)) /\ nth_error T i' = Some (caller 1, ALab (VRun 1)) /\ nth_error T k = Some (doer 1, ALab (VDo 1 (LD DStart))) /\
  exists j, nth_error T j = Some (runner 0, ALab (VDo 0 (LD DDefer))).
Proof.
  assert (H : traced winit (worker_step 1 9%Z) (worker_acts 1) [] [] (WSt 0 (fun _ => false) (fun _ => TNone) false)) by (apply tr_nil; repeat split).
  onward H ltac:(apply (WSCall 1 9%Z _ _ _ 0 0); reflexivity).
  onward H ltac:(apply (WSCall 1 9%Z _ _ _ 1 0); reflexivity).
  onward H ltac:(eapply (WSAcquire 1 9%Z _ _ _ 0); [reflexivity|lia]).
  onward H ltac:(eapply (WSDo 1 9%Z _ _ _ 0); [reflexivity|eapply SCheckOk; reflexivity|discriminate|discriminate]).
  onward H ltac:(eapply (WSDo 1 9%Z _ _ _ 0); [reflexivity|eapply SSpawn|discriminate|discriminate]).
  onward H ltac:(eapply (WSDo 1 9%Z _ _ _ 0); [reflexivity|eapply SStart|discriminate|discriminate]).
  onward H ltac:(eapply (WSDo 1 9%Z _ _ _ 0); [reflexivity|eapply SRet with (e := None)|discriminate|discriminate]).
  onward H ltac:(eapply (WSDo 1 9%Z _ _ _ 0); [reflexivity|eapply SSendDone|discriminate|discriminate]).
  onward H ltac:(eapply (WSDo 1 9%Z _ _ _ 0); [reflexivity|eapply SSelDone|discriminate|discriminate]).
  onward H ltac:(eapply (WSDo 1 9%Z _ _ _ 0); [reflexivity|eapply SDefer; reflexivity|discriminate|discriminate]).
  onward H ltac:(eapply (WSRelease 1 9%Z _ _ _ 0); [reflexivity|eapply SDeferEnd]).
  onward H ltac:(eapply (WSAcquire 1 9%Z _ _ _ 1); [reflexivity|lia]).
  onward H ltac:(eapply (WSDo 1 9%Z _ _ _ 1); [reflexivity|eapply SCheckOk; reflexivity|discriminate|discriminate]).
  onward H ltac:(eapply (WSDo 1 9%Z _ _ _ 1); [reflexivity|eapply SSpawn|discriminate|discriminate]).
  onward H ltac:(eapply (WSDo 1 9%Z _ _ _ 1); [reflexivity|eapply SStart|discriminate|discriminate]).
  match type of H with traced _ _ _ _ ?x _ => let y := eval cbv in x in change x with y in H end.
  eexists _, _, _, 3, 15, 19. split; [exact H|]. split; [lia|]. split; [reflexivity|]. split; [reflexivity|]. split; [reflexivity|]. exists 11. reflexivity.
Qed.
