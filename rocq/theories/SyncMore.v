(** * More about happens-before: a channel with one slot, and the events of one part of a trace *)
From Coq Require Import List Bool Arith Lia.
From Verif Require Import Trans SyncSpec SyncProofs.
Import ListNotations.
Open Scope nat_scope.

Section Slot.
Context {L M B : Type}.
Notation ev := (ev L M B).
Notation act := (act L M B).
Variable c : M.
Lemma or_hb : forall (T : list ev) i q k, i = q \/ hb T i q -> hb T q k -> hb T i k.
Proof. intros T i q k [->|H] H'; auto. eapply hb_tr; eauto. Qed.
(** Event i is, or happens before, the last operation on c, a channel of capacity 1, which holds p values and of which n have been received. *)
Definition lastop (T : list ev) (p n i : nat) : Prop :=
  match p with
  | 0 => exists m q, n = S m /\ kth (gets c) T m q /\ (i = q \/ hb T i q)
  | _ => exists q, kth (puts c) T n q /\ (i = q \/ hb T i q)
  end.
Lemma lastop_app : forall T E p n i, lastop T p n i -> lastop (T ++ E) p n i.
Proof.
  intros T E [|p] n i; cbn.
  - intros (m & q & -> & K & O). exists m, q. split; auto. split; [now apply kth_app|destruct O; auto using hb_app].
  - intros (q & K & O). exists q. split; [now apply kth_app|destruct O; auto using hb_app].
Qed.
(** The next send, when it is empty, and the next receive, when it is full *)
Lemma lastop_put : forall T n i t, counts (puts c) T n -> lastop T 0 n i -> hb (T ++ [(t, APut c 1)]) i (length T).
Proof.
  intros T n i t Hc (m & q & -> & K & O). apply or_hb with q; [destruct O; auto using hb_app|].
  eapply hb_room with (k := m) (n := 1) (c := c); [eapply kth_lt; eauto|now apply kth_app|apply nth_last|].
  rewrite Nat.add_1_r. apply kth_last; auto. now exists 1.
Qed.
Lemma lastop_get : forall (T : list ev) n i t, counts (gets c) T n -> lastop T 1 n i -> hb (T ++ [(t, AGet c)]) i (length T).
Proof.
  intros T n i t Hc (q & K & O). apply or_hb with q; [destruct O; auto using hb_app|].
  eapply hb_chan with (c := c); [eapply kth_lt; eauto|apply kth_app; exact K|]. apply kth_last; [auto|reflexivity].
Qed.
(** ... after which it is the last operation *)
Lemma put_last : forall (T : list ev) n t, counts (puts c) T n -> kth (puts c) (T ++ [(t, APut c 1)]) n (length T).
Proof. intros T n t H. apply kth_last; [auto|now exists 1]. Qed.
Lemma get_last : forall (T : list ev) n t, counts (gets c) T n -> kth (gets c) (T ++ [(t, AGet c)]) n (length T).
Proof. intros T n t H. apply kth_last; [auto|reflexivity]. Qed.
Lemma counts_quiet : forall (P : act -> Prop) E, (forall t a, In (t, a) E -> ~ P a) -> forall T n, counts P T n -> counts P (T ++ E) n.
Proof.
  intros P E. induction E as [|[t a] E IH]; intros Hq T n H; [now rewrite app_nil_r|].
  change ((t, a) :: E) with ([(t, a)] ++ E). rewrite app_assoc. apply IH; [intros u b Hb; apply (Hq u b); now right|]. constructor; auto. apply (Hq t a). now left.
Qed.
End Slot.

(** ** A part of a trace *)
Section Part.
Context {L M B L2 M2 B2 : Type}.
Variable f : nat -> nat.
Variable g : act L M B -> act L2 M2 B2.
(** e says where the events of T are in T2. *)
Record part (T : list (ev L M B)) (T2 : list (ev L2 M2 B2)) (e : nat -> nat) : Prop := {
  pt_nth : forall i u a, nth_error T i = Some (u, a) -> nth_error T2 (e i) = Some (f u, g a);
  pt_mono : forall i j, i < j -> j < length T -> e i < e j
}.
Definition simple (a : act L M B) : Prop := match a with AtRd _ | AtWr _ | AtCas _ | APut _ _ | AGet _ => False | _ => True end.
Hypothesis g_pairs : forall a u b, pairs a u b -> pairs (g a) (f u) (g b).
(** Happens-before in the part is happens-before in the whole. *)
Lemma hb_part : forall T T2 e, part T T2 e -> (forall i u a, nth_error T i = Some (u, a) -> simple a) -> forall i j, hb T i j -> hb T2 (e i) (e j).
Proof.
  intros T T2 e [Hn Hm] Hs i j H. induction H as [i j t a b Hl Hi Hj|i j t u a b Hl Hi Hj Hp|i j t u a b x Hl Hi Hj Ha|i j c k Hl ((t & a & Hi & n9 & ->) & _)|i j c k n9 u Hl ((t & a & Hi & ->) & _)|].
  - eapply hb_po; [apply Hm; [auto|eapply nth_lt; eauto]|apply Hn; eauto|apply Hn; eauto].
  - eapply hb_sync; [apply Hm; [auto|eapply nth_lt; eauto]|apply Hn; eauto|apply Hn; eauto|auto].
  - apply Hs in Hi. destruct a; contradiction.
  - apply Hs in Hi. contradiction.
  - apply Hs in Hi. contradiction.
  - eapply hb_tr; eauto.
Qed.
(** The part grows by x, the whole by x with other events around it. *)
Definition grown (T : list (ev L M B)) (T2 : list (ev L2 M2 B2)) (n : nat) (e : nat -> nat) (i : nat) : nat := if i <? length T then e i else length T2 + n + (i - length T).
Lemma part_grow : forall T T2 e x A C, part T T2 e -> part (T ++ x) (T2 ++ A ++ map (fun y => (f (fst y), g (snd y))) x ++ C) (grown T T2 (length A) e).
Proof.
  intros T T2 e x A C [Hn Hm].
  assert (Lt : forall i, i < length T -> e i < length T2).
  { intros i Hi. destruct (nth_error T i) as [[u a]|] eqn:E; [|apply nth_error_None in E; lia]. apply Hn in E. eapply nth_lt; eauto. }
  constructor.
  - intros i u a Hi. unfold grown. destruct (Nat.ltb_spec i (length T)) as [Hl|Hl].
    + rewrite nth_error_app1 in Hi by auto. apply nth_app_l. auto.
    + rewrite nth_error_app2 in Hi by auto. rewrite nth_error_app2 by lia. rewrite nth_error_app2 by lia.
      replace (length T2 + length A + (i - length T) - length T2 - length A) with (i - length T) by lia. apply nth_app_l. apply (map_nth_error (fun y : ev L M B => (f (fst y), g (snd y)))) in Hi. exact Hi.
  - intros i j Hij Hj. unfold grown. destruct (Nat.ltb_spec i (length T)) as [Hl|Hl], (Nat.ltb_spec j (length T)) as [Hl'|Hl']; auto; try lia.
    apply Lt in Hl. lia.
Qed.
End Part.
