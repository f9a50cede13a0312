(** * C110: the traces of Walk and Concat are possible *)
From Coq Require Import List Bool Arith ZArith Lia.
From Verif Require Import Trans NetModel XStreamModel FanModel FanSpec FanProofs SyncSpec SyncProofs FeasSpec FeasProofs FanSyncModel FanSyncProofs.
Import ListNotations.
Open Scope nat_scope.

Section P.
Context {X V : Type}.
Variable prog : X -> list (wact V).
Variable lim : option nat.
Variable cap : nat.
Notation ev := (SyncSpec.ev unit object (seenev X V)).
Notation fan := (fan X V).
Notation runs xs := (traced (fun s => s = finit xs) (fan_step prog lim cap) (fan_acts lim cap)).
Implicit Types T : list ev.

Record F T (s : fan) : Prop := {
  f_fe : feasible T;
  f_cl : if fcl s then some (AClose MOut) T else none (AClose MOut) T /\ none (AWaited MWg) T;
  f_never : none (ASend MOut) T /\ none (AClose MPool) T;
  f_out : exists n, counts (puts MOut) T (n + length (fbuf s)) /\ counts (gets MOut) T n;
  f_pool : forall w, lim = Some w -> exists n, counts (puts MPool) T (n + pool s) /\ counts (gets MPool) T n;
  f_cap : capacity MOut cap T /\ forall w, lim = Some w -> capacity MPool w T;
  f_go : forall j, length (ws s) <= j -> none (AGo (worker j)) T /\ silent (worker j) T
}.
Ltac ar := unfold worker, starter, reader in *; first [congruence|lia].
Ltac dis := let Q := fresh "Q" in first [discriminate|intros Q; discriminate Q|intros [? Q]; discriminate Q|intros Q; injection Q; intros; subst; ar|intros Q; ar|ar].
Ltac fall := repeat (apply Forall_cons; [cbn [fst snd]; dis|]); try apply Forall_nil.
Ltac quiet := apply cnt_quiet; [assumption|fall].
Ltac ex := first [apply Exists_cons_hd; reflexivity|apply Exists_cons_tl; ex].
Ltac noneT := apply none_app; [assumption|fall].
Ltac silT := apply silent_app; [assumption|fall].
Ltac capa := apply cap_app; [solve [auto]|]; repeat (apply Forall_cons; [let m9 := fresh in let Q9 := fresh in cbn [snd]; intros m9 Q9; first [discriminate Q9|injection Q9 as <-; congruence]|]); try apply Forall_nil.

Lemma two' : forall T (a b : ev), T ++ [a; b] = (T ++ [a]) ++ [b]. Proof. intros. now rewrite <- app_assoc. Qed.
Lemma four' : forall T (a b c d : ev), T ++ [a; b; c; d] = (((T ++ [a]) ++ [b]) ++ [c]) ++ [d]. Proof. intros. now rewrite <- !app_assoc. Qed.
Ltac no := apply c_no; [|dis].
Lemma F_all : forall xs tr T s, runs xs tr T s -> F T s.
Proof.
  intros xs. apply (traced_ind_inv _ _ _ (fun _ T s => F T s)).
  - intros s ->. constructor; cbn; try (repeat constructor; fail); try (exists 0; repeat constructor; fail).
    + split; [|intros w _]; intros m H; inversion H.
  - intros tr T s l s' R [Fe Fc [N1 N2] (n & Po & Go) Fp [C1 C2] Fg] St. apply inv_runs in R. apply view_of in St. remember (fan_acts lim cap s l) as E eqn:HE. clear HE.
    destruct St; cbn [dp ws fcl pool fbuf wg] in *; constructor; cbn [dp ws fcl pool fbuf].
    all: try solve [rewrite app_nil_r; auto].
    all: try solve [repeat match goal with |- context [if ?b then _ else _] => is_var b; destruct b end; first [now apply some_app|apply some_in; ex|destruct Fc as [? ?]; split; noneT]].
    all: try solve [split; noneT].
    all: try solve [exists n; split; quiet].
    all: try solve [intros w9 H9; destruct (Fp w9 H9) as (m9 & P9 & G9); exists m9; split; quiet].
    all: try solve [split; [|intros w9 H9; specialize (C2 w9 H9)]; capa].
    all: try solve [rewrite ?app_length in *; cbn [length] in *; intros j9 L9; destruct (Fg j9) as [? ?]; [lia|]; split; [noneT|silT]].
    all: try solve [apply fe_one; [auto|apply m_lab]].
    + destruct (Fp w H) as (m & P9 & G9). apply fe_one; [auto|]. apply m_put with (m + p) m; auto. lia.
    + intros w' E'. destruct (Fp w' E') as (m & P9 & G9). exists m. split; [|quiet]. replace (m + S p) with (S (m + p)) by lia. apply c_yes; [auto|now exists w].
    + destruct (Fp w H) as (m & P9 & G9). apply fe_one; [auto|]. apply m_get with (m + S p) m; auto. lia.
    + intros w' E'. destruct (Fp w' E') as (m & P9 & G9). exists (S m). split; [replace (S m + p) with (m + S p) by lia; quiet|]. apply c_yes; [auto|reflexivity].
    + intros w' E'. congruence.
    + destruct (Fg (length l0)) as [? ?]; [auto|]. apply fe_one; [auto|]. apply m_go; auto. ar.
    + destruct Fc as [? ?]. apply fe_two; [auto|apply m_lab|apply m_put with (n + length b) n]; try quiet; try noneT; [lia|capa].
    + exists n. rewrite two', app_length. cbn [length]. replace (n + (length b + 1)) with (S (n + length b)) by lia. split; [apply c_yes; [no; auto|now exists cap]|no; no; auto].
    + cbn [length] in *. rewrite Nat.add_0_r in *. destruct Fc as [? ?]. rewrite four'. apply fe_one; [|apply m_lab]. apply fe_one; [|apply m_get with (S n) n; [apply c_yes; [no; auto|now exists cap]|no; no; auto|lia]]. apply fe_one; [apply fe_one; [auto|apply m_lab]|]. apply m_put with n n; [no; auto|no; auto|lia|capa|noneT].
    + cbn [length] in *. rewrite Nat.add_0_r in *. exists (S n). rewrite Nat.add_0_r, four'. split; [no; no; apply c_yes; [no; auto|now exists cap]|no; apply c_yes; [no; no; auto|reflexivity]].
    + assert (c = false) as -> by (destruct c; auto; pose proof (proj1 (i_cl _ _ _ _ _ _ R) eq_refl) as Hd; pose proof (i_end _ _ _ _ _ _ R Hd); discriminate). destruct Fc as [? ?]. apply fe_one; [auto|now apply m_done].
    + destruct (Fp w H) as (m & P9 & G9). apply fe_one; [auto|]. apply m_get with (m + S p) m; auto. lia.
    + intros w' E'. destruct (Fp w' E') as (m & P9 & G9). exists (S m). split; [replace (S m + p) with (m + S p) by lia; quiet|]. apply c_yes; [auto|reflexivity].
    + destruct Fc as [? ?]. apply fe_two; [auto|now apply m_waited|apply m_close; noneT].
    + cbn [length] in *. apply fe_two; [auto|apply m_get with (n + S (length b)) n; auto; lia|apply m_lab].
    + cbn [length] in *. exists (S n). rewrite two'. split; [replace (S n + length b) with (n + S (length b)) by lia; no; no; auto|no; apply c_yes; [auto|reflexivity]].
    + cbn [length] in *. rewrite Nat.add_0_r in *. apply fe_two; [auto|apply m_end with n; auto|apply m_lab].
Qed.
End P.

Section Walk.
Context {A : Type}.
Notation item := (item A).
Notation walks f opts xs := (traced (fun s => s = finit xs) (fan_step (walk_prog f) (Some (loadOptions opts)) (loadOptions opts)) (fan_acts (Some (loadOptions opts)) (loadOptions opts))).
Notation concats xss := (traced (fun s => s = finit xss) (fan_step (concat_prog (A := A)) None 0) (fan_acts None 0)).
(** C110: the traces that C107 is about can be: no more values in pool and in the result than there is room for, nothing
    received that was not sent; the result is closed once, and nothing is sent on it then; Wait returns once, after the last
    Done; a goroutine is started once, and does nothing before. *)
Theorem C110_walk : forall f opts (xs : list item) tr T s, walks f opts xs tr T s -> feasible T.
Proof. intros f opts xs tr T s R. exact (f_fe _ _ _ _ (F_all _ _ _ xs tr T s R)). Qed.
Theorem C110_concat : forall (xss : list (list item)) tr T s, concats xss tr T s -> feasible T.
Proof. intros xss tr T s R. exact (f_fe _ _ _ _ (F_all _ _ _ xss tr T s R)). Qed.
End Walk.
Print Assumptions C110_walk.
Print Assumptions C110_concat.
