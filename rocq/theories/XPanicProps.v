(** * Property C81: callbacks of Distinct and Peek that panic *)
From Coq Require Import List Bool Arith ZArith Lia.
From Verif Require Import Trans NetModel NetSpec NetProofs XStreamModel XStreamSpec XStreamProofs XPanicModel XPanicProofs.
Import ListNotations.
Open Scope nat_scope.

(** When the callback panics on none of the items, the operators are those of C62 and C69 *)
Theorem C81_distinct_total : forall {A} (f : item A -> option nat) (key : item A -> nat) xs,
  (forall y, In y xs -> f y = Some (key y)) -> works (distinct_p f []) xs (firsts key [] xs).
Proof.
  intros A f key xs H. destruct (ev_distinct key xs [] []) as (es & H1 & H2); [intros; reflexivity|].
  eapply ev_works'; [|exact H2]. now apply (distinct_p_total f key).
Qed.
Theorem C81_peek_total : forall {A} (ok : item A -> bool) xs, (forall y, In y xs -> ok y = true) ->
  works (peek_p ok) xs xs /\ performs (peek_p ok) xs (flat_map (fun x => [AcR (Some x); AcS x; AcC (CallF x)]) xs ++ [AcR None; AcX]).
Proof.
  intros A ok xs H. pose proof (peek_p_total ok xs H) as Hev. split; [|eapply ev_performs; exact Hev].
  eapply ev_works'; [exact Hev|]. rewrite outs_app. cbn. rewrite app_nil_r. clear. induction xs; cbn; auto. f_equal. exact IHxs.
Qed.

(** C81 (Distinct).  The key function panics on x, the first such item.  Whatever the schedule
    and the channel sizes: nothing else panics; the consumer receives the distinct items before
    x, in order, and then sees a stream that looks complete; it always gets that far after
    finitely many steps; and if more items follow x than the source's channel holds, the goroutine of
    the source never ends. *)
Theorem C81_distinct : forall {A} (f : item A -> option nat) (key : item A -> nat) pre x post n m,
  (forall y, In y pre -> f y = Some (key y)) -> f x = None ->
  let ps := [(source (pre ++ x :: post), n); (distinct_p f [], m)] in
  (exists N, forall tr s, steps nstep (start ps) tr s -> length (filter (fun l => negb (is_outend l)) tr) <= N) /\
  forall tr s, steps nstep (start ps) tr s ->
    Forall (fun st => ~ faulty st) s /\
    prefix (delivered tr) (firsts key [] pre) /\
    (forall s', nstep s TOutEnd s' -> delivered tr = firsts key [] pre) /\
    ((exists l s', l <> TOutEnd /\ nstep s l s') \/ (delivered tr = firsts key [] pre /\ nstep s TOutEnd s /\ (length post <= n -> Forall ended s))) /\
    (n < length post -> ~ Forall ended s).
Proof.
  intros A f key pre x post n m Hpre Hx ps.
  destruct (distinct_p_ev f x post pre [] []) as (es & Hev & Ho); auto.
  { intros y Hy. rewrite Hpre by auto. discriminate. }
  assert (Hk : forall pr e, (forall y, In y (e ++ pr) -> f y = Some (key y)) -> firsts (keyed f) e pr = firsts key e pr).
  { induction pr as [|y pr IH]; intros e He; cbn [firsts]; auto.
    rewrite IH by (intros y' H'; apply He; rewrite <- app_assoc in H'; exact H'). f_equal.
    assert (keyed f y = key y) as -> by (unfold keyed; rewrite He; auto; apply in_app_iff; right; now left).
    assert (existsb (fun y0 => keyed f y0 =? key y) e = existsb (fun y0 => key y0 =? key y) e) as ->; auto.
    clear IH. induction e as [|a e IH]; cbn; auto. rewrite IH by (intros y' H'; apply He; now right).
    f_equal. f_equal. unfold keyed. rewrite He; auto. now left. }
  rewrite Hk in Ho by (cbn; auto). rewrite <- Ho. split.
  - exists (2 * length (pre ++ x :: post) + 1 + 2 * length es). intros tr s R. exact (quit_bound _ _ _ _ _ Hev _ _ _ _ R).
  - intros tr s R. destruct (quit_safe _ _ _ _ _ Hev _ _ _ _ R) as (S1 & S2 & _ & S4 & S5).
    destruct (quit_live _ _ _ _ _ Hev _ _ _ _ R) as [L|(L1 & _ & L3 & L4)].
    + split; [auto|]. split; [auto|]. split; [intros s' Hs; now apply (S4 s')|]. split; [left; exact L|exact S5].
    + split; [auto|]. split; [auto|]. split; [intros s' Hs; now apply (S4 s')|]. split; [right; auto|exact S5].
Qed.

(** C81 (Peek).  f panics on x, the first such item.  Whatever the schedule and the channel
    sizes: the consumer receives a prefix of the items up to and including x and never sees
    the stream end; f is called for these items in order; after finitely many steps the
    consumer has received all of them and waits for ever. *)
Theorem C81_peek_never_ends : forall {A} (ok : item A -> bool) pre x post n m,
  (forall y, In y pre -> ok y = true) -> ok x = false ->
  let ps := [(source (pre ++ x :: post), n); (peek_p ok, m)] in
  (exists N, forall tr s, steps nstep (start ps) tr s -> length tr <= N) /\
  forall tr s, steps nstep (start ps) tr s ->
    Forall (fun st => ~ faulty st) s /\
    prefix (delivered tr) (pre ++ [x]) /\
    prefix (calls (acts 1 tr)) (map CallF (pre ++ [x])) /\
    ~ (exists s', nstep s TOutEnd s') /\
    ((exists l s', nstep s l s') \/ (delivered tr = pre ++ [x] /\ calls (acts 1 tr) = map CallF (pre ++ [x]))) /\
    (n < length post -> ~ Forall ended s).
Proof.
  intros A ok pre x post n m Hpre Hx ps.
  pose proof (peek_p_ev ok x post pre Hpre Hx) as Hev.
  remember (flat_map (fun y => [AcR (Some y); AcS y; AcC (CallF y)]) (pre ++ [x])) as es eqn:Ees.
  assert (Ho : outs es = pre ++ [x]).
  { subst es. clear. unfold outs. induction (pre ++ [x]) as [|y l IH]; cbn; auto. f_equal. exact IH. }
  assert (Hc : calls es = map CallF (pre ++ [x])).
  { subst es. clear. unfold calls. induction (pre ++ [x]) as [|y l IH]; cbn; auto. f_equal. exact IH. }
  clear Ees. rewrite <- Hc, <- Ho.
  assert (NE : forall tr s, steps nstep (start ps) tr s -> ~ (exists s', nstep s TOutEnd s')).
  { intros tr s R (s' & Hs). destruct (quit_safe _ _ _ _ _ Hev _ _ _ _ R) as (_ & _ & _ & S4 & _). destruct (S4 _ Hs). discriminate. }
  split.
  - exists (2 * length (pre ++ x :: post) + 1 + 2 * length es). intros tr s R.
    pose proof (quit_bound _ _ _ _ _ Hev _ _ _ _ R) as B.
    assert (filter (fun l => negb (is_outend l)) tr = tr) as <-; auto.
    clear B. induction R as [|tr s1 l s2 R IH St]; auto.
    rewrite filter_app, IH. f_equal. destruct l; auto. exfalso. eapply NE; eauto.
  - intros tr s R. destruct (quit_safe _ _ _ _ _ Hev _ _ _ _ R) as (S1 & S2 & S3 & S4 & S5).
    split; [auto|]. split; [auto|]. split.
    { destruct S3 as (c & ->). exists (calls c). unfold calls. now rewrite flat_map_app. }
    split; [eapply NE; eauto|]. split; [|exact S5].
    destruct (quit_live _ _ _ _ _ Hev _ _ _ _ R) as [(l & s' & _ & L)|(L1 & L2 & _)]; [left; eauto|right; split; congruence].
Qed.

(** Non-vacuity: a key function that panics on nil, and a run of Distinct and of Peek up to that item *)
Definition ex_f (x : item nat) : option nat := match x with IAtom k => Some k | _ => None end.
Definition ex_k (x : item nat) : nat := match x with IAtom k => k | _ => 0 end.
Definition ex_in : list (item nat) := [IAtom 3; IAtom 3; INil; IAtom 4; IAtom 5].
Example C81_ex_hyps : (forall y, In y [IAtom 3; IAtom 3] -> ex_f y = Some (ex_k y)) /\ ex_f INil = None /\
  ex_in = [IAtom 3; IAtom 3] ++ INil :: [IAtom 4; IAtom 5] /\ firsts ex_k [] [IAtom 3; IAtom 3] = [IAtom 3].
Proof. repeat split; auto. intros y [<-|[<-|[]]]; reflexivity. Qed.
(** the consumer gets one item and the end of the stream; the source is stuck with two items *)
Example C81_ex_distinct : exists tr s, steps nstep (start [(source ex_in, 0); (distinct_p ex_f [], 0)]) tr s /\
  delivered tr = [IAtom 3] /\ nstep s TOutEnd s /\ forall l s', l <> TOutEnd -> ~ nstep s l s'.
Proof.
  exists [THand 0 (IAtom 3); TOutH 1 (IAtom 3); THand 0 (IAtom 3); THand 0 INil; TClose 1].
  exists [(sends [IAtom 4; IAtom 5] (PClose PEnd), Ch 0 [] false); (PEnd, Ch 0 [] true)].
  split; [|split; [reflexivity|split; [apply step2_nstep; apply s2_outend|]]].
  - unfold ex_in, source. cbn [start map fst snd sends].
    eapply steps_cons; [rewrite (frob_eq (distinct_p _ _)); cbn [frob distinct_p]; apply step2_nstep, s2_hand|]. cbn [ex_f mem existsb negb].
    eapply steps_cons; [apply step2_nstep, s2_outh|].
    eapply steps_cons; [rewrite (frob_eq (distinct_p _ _)); cbn [frob distinct_p]; apply step2_nstep, s2_hand|]. cbn [ex_f mem existsb negb Nat.eqb orb].
    eapply steps_cons; [rewrite (frob_eq (distinct_p _ _)); cbn [frob distinct_p]; apply step2_nstep, s2_hand|]. cbn [ex_f].
    eapply steps_cons; [apply step2_nstep, s2_close2|]. constructor.
  - intros l s' Hl H. apply step2_inv in H. destruct H as (? & ? & _ & H). inversion H; subst; try congruence. cbn in *; lia.
Qed.
Example C81_ex_peek : exists tr s, steps nstep (start [(source ex_in, 5); (peek_p (fun x => match ex_f x with Some _ => true | None => false end), 0)]) tr s /\
  delivered tr = [IAtom 3; IAtom 3; INil] /\ Forall ended s /\ forall l s', ~ nstep s l s'.
Proof.
  eexists _, [(PEnd, Ch 5 [IAtom 4; IAtom 5] true); (PEnd, Ch 0 [] false)].
  split; [|split; [|split; [repeat constructor|]]].
  - unfold ex_in, source. cbn [start map fst snd sends].
    do 5 (eapply steps_cons; [apply step2_nstep, s2_send1; cbn; lia|]; cbn [app]).
    eapply steps_cons; [apply step2_nstep, s2_close1|].
    do 3 (eapply steps_cons; [rewrite (frob_eq (peek_p _)); cbn [frob peek_p]; apply step2_nstep, s2_recv|];
          eapply steps_cons; [apply step2_nstep, s2_outh|]; eapply steps_cons; [apply step2_nstep, s2_call2|]; cbn [ex_f]).
    constructor.
  - reflexivity.
  - intros l s' H. apply step2_inv in H. destruct H as (? & ? & _ & H). inversion H.
Qed.

Print Assumptions C81_distinct_total. Print Assumptions C81_peek_total. Print Assumptions C81_distinct. Print Assumptions C81_peek_never_ends.
