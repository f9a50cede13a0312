(** * Walk and Concat: proofs *)
From Coq Require Import List Bool Arith Lia Permutation.
From Verif Require Import Trans FanModel FanSpec.
Import ListNotations.

Section Proofs.
Context {X V : Type}.
Variable prog : X -> list (wact V).
Variable lim : option nat.
Variable cap : nat.
Hypothesis lim_pos : forall w, lim = Some w -> 1 <= w.
Notation fan := (fan X V). Notation wst := (wst X V). Notation flabel := (flabel X V).
Notation fstep := (fstep prog lim cap).

Definition outl (a : list (wact V)) : list V := flat_map (fun x => match x with ASend v => [v] | ATau => [] end) a.
Definition rem (w : wst) : list V := match w with WNew x => outl (prog x) | WRun _ a => outl a | _ => [] end.
Definition itm (w : wst) : X := match w with WNew x | WRun x _ | WRet x | WRel x | WEnd x => x end.
Definition hand (d : dpc (X:=X)) : list X := match d with DHave x => [x] | _ => [] end.
Definition live (w : wst) : nat := match w with WNew _ | WRun _ _ | WRet _ => 1 | _ => 0 end.
Definition nonend (w : wst) : nat := match w with WEnd _ => 0 | _ => 1 end.
Definition slot (d : dpc (X:=X)) : nat := match d with DRecv | DHave _ | DRel => 1 | _ => 0 end.
Definition sum (f : wst -> nat) (l : list wst) : nat := list_sum (map f l).
Arguments sum : simpl never.
Definition st_of (w : wst) : list X := match w with WNew _ => [] | w => [itm w] end.
Definition rt_of (w : wst) : list X := match w with WRet x | WRel x | WEnd x => [x] | _ => [] end.

Lemma sum_app : forall f a b, sum f (a ++ b) = sum f a + sum f b.
Proof. intros. unfold sum. now rewrite map_app, list_sum_app. Qed.
Lemma sum_cons : forall f w b, sum f (w :: b) = f w + sum f b.
Proof. reflexivity. Qed.

Record inv (xs : list X) (tr : list flabel) (s : fan) : Prop := {
  i_xs : xs = map itm (ws s) ++ hand (dp s) ++ inp s;
  i_wg : wg s = sum live (ws s);
  i_pool : forall w, lim = Some w -> pool s = sum nonend (ws s) + slot (dp s) /\ pool s <= w;
  i_cl : fcl s = true <-> dp s = DEnd;
  i_end : dp s = DEnd -> wg s = 0;
  i_inp : dp s = DEnd \/ dp s = DWait \/ dp s = DRel -> inp s = [];
  i_none : lim = None -> slot (dp s) = 0 \/ exists x, dp s = DHave x;
  i_buf : length (fbuf s) <= cap;
  i_takes : takes (map (fun x => outl (prog x)) xs) (fdelivered tr ++ fbuf s) (map rem (ws s) ++ map (fun x => outl (prog x)) (hand (dp s) ++ inp s));
  i_st : Permutation (started tr) (flat_map st_of (ws s));
  i_rt : Permutation (returned tr) (flat_map rt_of (ws s));
  i_close : closes tr = if fcl s then 1 else 0 }.

Lemma takes_at : forall (ls : list (list V)) s l1 v r l2 l3, takes ls s ((l1 ++ (v :: r) :: l2) ++ l3) -> takes ls (s ++ [v]) ((l1 ++ r :: l2) ++ l3).
Proof. intros. rewrite <- app_assoc in *. cbn in *. now apply takes_one. Qed.

Lemma fdel_app : forall a b : list flabel, fdelivered (a ++ b) = fdelivered a ++ fdelivered b.
Proof. intros. apply flat_map_app. Qed.
Lemma started_app : forall a b : list flabel, started (a ++ b) = started a ++ started b.
Proof. intros. apply flat_map_app. Qed.
Lemma returned_app : forall a b : list flabel, returned (a ++ b) = returned a ++ returned b.
Proof. intros. apply flat_map_app. Qed.
Lemma closes_app : forall a b : list flabel, closes (a ++ b) = closes a + closes b.
Proof. intros. unfold closes. now rewrite filter_app, app_length. Qed.

Lemma inv_init : forall xs, inv xs [] (finit xs).
Proof.
  intros xs. constructor; cbn; auto; try lia; try (intuition discriminate).
  all: try (change (sum nonend []) with 0; intros; split; lia).
  constructor.
Qed.

Ltac norm := cbn [inp dp pool wg ws fbuf fcl] in *; rewrite ?fdel_app, ?started_app, ?returned_app, ?closes_app, ?map_app, ?flat_map_app, ?sum_app in *;
  cbn [map flat_map app fdelivered started returned closes filter length inp dp pool wg ws fbuf fcl itm rem st_of rt_of hand slot live nonend sum_cons] in *;
  rewrite ?app_nil_r, ?Nat.add_0_r, ?sum_cons in *; cbn [live nonend] in *.

Lemma inv_step : forall xs tr s l s', inv xs tr s -> fstep s l s' -> inv xs (tr ++ [l]) s'.
Proof.
  intros xs tr s l s' [Ix Iw Ip Ic Ie Ii In Ib It Is Ir Icl] St.
  destruct St as [i p g l b c w Hl Lp|x i p g l b c|p g l b c|i p g l b c|x i p g l b c Hl|p g l b c Hl|x i p g l b c|x i d p g l1 l2 b c|x a i d p g l1 l2 b c
    |x v a i d p g l1 l2 b Lb|x v a i d p g l1 l2 Hc|x i d p g l1 l2 b c|x i d p g l1 l2 b c|x i d p g l1 l2 b c w Hl|x i d p g l1 l2 b c Hl|i p l b|i d p g l v b c|i d p g l].
  all: constructor; norm; auto.
  all: try (intuition discriminate).
  all: try congruence.
  all: try lia.
  all: try (rewrite Ic; intuition discriminate).
  all: try (let w0 := fresh in let H0 := fresh in intros w0 H0; destruct (Ip w0 H0); try change (sum nonend [WNew x]) with 1; try (rewrite Hl in H0; injection H0 as <-); lia).
  all: try (intros; right; eauto; fail).
  all: try (let H := fresh in intros H; destruct (In H) as [?|[? ?]]; discriminate).
  all: try (rewrite <- app_assoc; assumption).
  all: try (change (sum live [WNew x]) with 1; lia).
  all: try (rewrite app_assoc; eapply Permutation_trans; [apply Permutation_app_comm|]; cbn; apply Permutation_cons_app; rewrite <- ?app_assoc; assumption).
  all: try (rewrite app_length; cbn; lia).
  all: try (cbn [outl flat_map app] in It; fold (outl a) in It; rewrite ?app_assoc; apply takes_at; exact It).
  all: try (change (sum live []) with 0; lia).
  all: try (eapply Permutation_trans; [apply Permutation_app_comm|]; cbn; apply Permutation_cons_app; assumption).
  all: cbn [outl flat_map app] in It; fold (outl a) in It; try rewrite (app_assoc (fdelivered tr) b [v]); apply takes_at; exact It.
Qed.

Lemma inv_steps : forall xs tr s, steps fstep (finit xs) tr s -> inv xs tr s.
Proof. intros xs tr s R. induction R as [|tr s1 l s2 R IH St]; [apply inv_init|]. eapply inv_step; eauto. Qed.

Lemma live_in : forall l1 w l2, live w = 1 -> 1 <= sum live (l1 ++ w :: l2).
Proof. intros. rewrite sum_app, sum_cons. lia. Qed.
Lemma nonend_in : forall l1 w l2, nonend w = 1 -> 1 <= sum nonend (l1 ++ w :: l2).
Proof. intros. rewrite sum_app, sum_cons. lia. Qed.

Theorem no_fault : forall xs tr s, steps fstep (finit xs) tr s -> ~ ffault s.
Proof.
  intros xs tr s R F. apply inv_steps in R. destruct R. destruct F as [[F1 [(l1 & x & v & a & l2 & F2)|[F2 F3]]]|[F1 (l1 & x & l2 & F2)]].
  - apply i_cl0 in F1. apply i_end0 in F1. rewrite F2 in i_wg0. pose proof (live_in l1 (WRun x (ASend v :: a)) l2 eq_refl). lia.
  - apply i_cl0 in F1. congruence.
  - rewrite F2 in i_wg0. pose proof (live_in l1 (WRet x) l2 eq_refl). lia.
Qed.

Lemma at_end : forall xs tr s, inv xs tr s -> dp s = DEnd -> Forall (fun w => live w = 0) (ws s) /\ inp s = [].
Proof.
  intros xs tr s I E. split; [|apply (i_inp _ _ _ I); auto]. pose proof (i_end _ _ _ I E) as W. rewrite (i_wg _ _ _ I) in W.
  apply Forall_forall. intros w Hw. apply in_split in Hw. destruct Hw as (l1 & l2 & Ew). rewrite Ew, sum_app, sum_cons in W. lia.
Qed.

Lemma takes_len : forall (ls : list (list V)) s r, takes ls s r -> length r = length ls.
Proof. induction 1; auto. rewrite app_length in *. cbn in *. auto. Qed.

(** The reader sees the end only after everything was delivered and every call returned *)
Theorem end_all : forall xs tr s s', steps fstep (finit xs) tr s -> fstep s LOutEnd s' ->
  interleaving (map (fun x => outl (prog x)) xs) (fdelivered tr) /\ Permutation (started tr) xs /\ Permutation (returned tr) xs.
Proof.
  intros xs tr s s' R St. apply inv_steps in R. inversion St; subst. pose proof R as I. destruct R. cbn in *.
  assert (Ed : d = DEnd) by (apply i_cl0; auto). destruct (at_end _ _ _ I Ed) as [Fl Ei]. cbn in *. subst d i. cbn in *. rewrite !app_nil_r in *.
  assert (Er : map rem l = map (fun _ => []) (map (fun x => outl (prog x)) xs)).
  { subst xs. rewrite !map_map. clear - Fl. induction Fl as [|w l Hw Fl IH]; cbn; auto. f_equal; auto. destruct w; cbn in *; auto; discriminate. }
  split; [|split].
  - unfold interleaving. rewrite <- Er. exact i_takes0.
  - subst xs. eapply Permutation_trans; [exact i_st0|]. clear - Fl. induction Fl as [|w l Hw Fl IH]; cbn; auto. destruct w; cbn in *; try discriminate; now constructor.
  - subst xs. eapply Permutation_trans; [exact i_rt0|]. clear - Fl. induction Fl as [|w l Hw Fl IH]; cbn; auto. destruct w; cbn in *; try discriminate; now constructor.
Qed.

Theorem running_le : forall xs tr s w, lim = Some w -> steps fstep (finit xs) tr s -> running s <= w.
Proof.
  intros xs tr s w H R. apply inv_steps in R. destruct (i_pool _ _ _ R w H) as [E L].
  assert (running s <= sum nonend (ws s)); [|lia]. unfold running. clear. induction (ws s) as [|[] l IH]; rewrite ?sum_cons; cbn [filter length nonend]; try (unfold sum; cbn; lia); lia.
Qed.

(** Progress *)
Lemma all_end_dec : forall l : list wst, Forall (fun w => exists x, w = WEnd x) l \/ exists l1 w l2, l = l1 ++ w :: l2 /\ nonend w = 1.
Proof.
  induction l as [|w l [IH|(l1 & w' & l2 & -> & H)]].
  - left; constructor.
  - destruct w; try (right; eexists [], _, l; split; [reflexivity|reflexivity]). left. constructor; eauto.
  - right. exists (w :: l1), w', l2. auto.
Qed.
Lemma sum_end : forall l, Forall (fun w : wst => exists x, w = WEnd x) l -> sum live l = 0 /\ sum nonend l = 0.
Proof. induction 1 as [|w l (x & ->) F [IH1 IH2]]; auto. Qed.

Theorem progress : forall xs tr s, steps fstep (finit xs) tr s -> (exists l s', l <> LOutEnd /\ fstep s l s') \/ fdone s.
Proof.
  intros xs tr s R. apply inv_steps in R. destruct s as [i d p g l b c]. pose proof R as I. destruct R. cbn in *.
  destruct b as [|v b]; [|left; eexists _, _; split; [|apply FOut]; discriminate].
  destruct (all_end_dec l) as [F|(l1 & w & l2 & -> & Hw)].
  - destruct (sum_end _ F) as [E1 E2].
    destruct d; cbn in *.
    + destruct lim as [w|] eqn:El.
      * left. eexists _, _. split; [|eapply FAcq; eauto]. discriminate. specialize (lim_pos w eq_refl). destruct (i_pool0 w eq_refl). lia.
      * destruct i as [|x i]; left; eexists _, _; (split; [|first [apply FNext; auto|apply FNextEnd; auto]]; discriminate).
    + destruct i as [|x i]; left; eexists _, _; (split; [|first [apply FRecv; auto|apply FRecvEnd; auto]]; discriminate).
    + left. eexists _, _. split; [|apply FSpawn]. discriminate.
    + destruct lim as [w|] eqn:El.
      * destruct (i_pool0 w eq_refl) as [Ep _]. destruct p; [lia|]. left. eexists _, _. split; [|apply FRel]. discriminate.
      * destruct (i_none0 eq_refl) as [?|(x & ?)]; discriminate.
    + left. assert (c = false) by (destruct c; auto; destruct i_cl0 as [H _]; now specialize (H eq_refl)). subst c g.
      rewrite E1. eexists _, _. split; [|apply FClose]. discriminate.
    + right. split; auto. split; auto. split; auto. apply i_cl0. auto.
  - left. destruct w as [x|x [|[v|] a]|x|x|x]; try discriminate.
    + eexists _, _. split; [|apply FStart]. discriminate.
    + eexists _, _. split; [|apply FRet]. discriminate.
    + assert (c = false). { destruct c; auto. destruct i_cl0 as [H _]. specialize (H eq_refl). apply i_end0 in H. pose proof (live_in l1 (WRun x (ASend v :: a)) l2 eq_refl). lia. }
      subst c. destruct (Nat.eq_dec cap 0) as [E|E].
      * eexists _, _. split; [|apply FSendH; auto]. discriminate.
      * eexists _, _. split; [|apply FSend; cbn; lia]. discriminate.
    + eexists _, _. split; [|apply FTau]. discriminate.
    + pose proof (live_in l1 (WRet x) l2 eq_refl). destruct g; [lia|]. eexists _, _. split; [|apply FDone]. discriminate.
    + destruct lim as [w|] eqn:El.
      * destruct (i_pool0 w eq_refl) as [Ep _]. pose proof (nonend_in l1 (WRel x) l2 eq_refl). destruct p; [lia|].
        eexists _, _. split; [|eapply FFree; eauto]. discriminate.
      * eexists _, _. split; [|apply FFreeN; auto]. discriminate.
Qed.

(** Termination *)
Definition acost (a : wact V) : nat := match a with ASend _ => 2 | ATau => 1 end.
Definition pcost (a : list (wact V)) : nat := list_sum (map acost a).
Definition wcost (w : wst) : nat := match w with WNew x => 4 + pcost (prog x) | WRun _ a => 3 + pcost a | WRet _ => 2 | WRel _ => 1 | WEnd _ => 0 end.
Definition dcost (d : dpc (X:=X)) : nat := match d with DTop => 4 | DRecv => 3 | DHave x => 9 + pcost (prog x) | DRel => 2 | DWait => 1 | DEnd => 0 end.
Definition icost (l : list X) : nat := list_sum (map (fun x => 7 + pcost (prog x)) l).
Definition fcost (s : fan) : nat := icost (inp s) + dcost (dp s) + sum wcost (ws s) + length (fbuf s).

Lemma icost_cons : forall x l, icost (x :: l) = 7 + pcost (prog x) + icost l.
Proof. reflexivity. Qed.
Lemma pcost_cons : forall a l, pcost (a :: l) = acost a + pcost l.
Proof. reflexivity. Qed.
Lemma fcost_step : forall s l s', fstep s l s' -> l <> LOutEnd -> fcost s' < fcost s.
Proof.
  intros s l s' St Hl. destruct St; unfold fcost; cbn [inp dp ws fbuf dcost]; rewrite ?sum_app, ?sum_cons; cbn [wcost icost map list_sum length]; rewrite ?app_length; cbn [length];
    try (unfold icost; cbn; lia); try (unfold pcost; cbn; lia); try (change (sum wcost [WNew x]) with (4 + pcost (prog x) + 0); lia); try congruence.
  all: rewrite ?icost_cons, ?pcost_cons; try change (sum wcost []) with 0; cbn [acost]; lia.
Qed.
Theorem bounded : forall xs tr s, steps fstep (finit xs) tr s -> length (filter not_end tr) + fcost s <= fcost (finit xs).
Proof.
  intros xs tr s R. induction R as [|tr s1 l s2 R IH St]; auto. rewrite filter_app, app_length. cbn [filter].
  assert (D : l = LOutEnd \/ l <> LOutEnd) by (destruct l; auto; right; discriminate). destruct D as [->|N].
  - inversion St; subst. cbn [not_end length]. lia.
  - pose proof (fcost_step _ _ _ St N). replace (not_end l) with true by (destruct l; auto; congruence). cbn [length]. lia.
Qed.

(** One worker: the order is kept *)
Definition solo (l : list wst) : Prop := forall l1 w l2, l = l1 ++ w :: l2 -> l2 <> [] -> exists x, w = WEnd x.
Record inv1 (xs : list X) (tr : list flabel) (s : fan) : Prop := {
  j_inv : inv xs tr s;
  j_solo : solo (ws s);
  j_ord : (fdelivered tr ++ fbuf s) ++ concat (map rem (ws s)) ++ concat (map (fun x => outl (prog x)) (hand (dp s) ++ inp s)) = concat (map (fun x => outl (prog x)) xs) }.

Lemma solo_upd : forall l1 w w' l2, solo (l1 ++ w :: l2) -> nonend w = 1 -> l2 = [] /\ solo (l1 ++ w' :: l2).
Proof.
  intros l1 w w' l2 H Hw. assert (l2 = []). { destruct l2; auto. destruct (H l1 w _ eq_refl) as (x & ->); discriminate. }
  subst l2. split; auto. intros a v b E Hb.
  destruct (exists_last Hb) as (b' & y & ->). rewrite app_comm_cons, app_assoc in E. apply app_inj_tail in E. destruct E as [-> <-].
  apply (H a v (b' ++ [w])); [now rewrite <- app_assoc|]. destruct b'; discriminate.
Qed.
Lemma solo_rem : forall l1 w, solo (l1 ++ [w]) -> concat (map rem l1) = [].
Proof.
  intros l1 w H. assert (F : Forall (fun v => exists x, v = WEnd x) l1).
  { apply Forall_forall. intros v Hv. apply in_split in Hv. destruct Hv as (a & b & ->). apply (H a v (b ++ [w])); [now rewrite <- app_assoc|]. destruct b; discriminate. }
  clear H. induction F as [|v l (x & ->) F IH]; auto.
Qed.

Lemma inv1_steps : forall xs tr s, lim = Some 1 -> steps fstep (finit xs) tr s -> inv1 xs tr s.
Proof.
  intros xs tr s H1 R. induction R as [|tr s1 l s2 R [I So Or] St].
  - constructor; [apply inv_init| |reflexivity]. intros [|] ? ? E; discriminate.
  - pose proof (inv_step _ _ _ _ _ I St) as I2.
    destruct St as [i p g l b c w Hl Lp|x i p g l b c|p g l b c|i p g l b c|x i p g l b c Hl|p g l b c Hl|x i p g l b c|x i d p g l1 l2 b c|x a i d p g l1 l2 b c
    |x v a i d p g l1 l2 b Lb|x v a i d p g l1 l2 Hc|x i d p g l1 l2 b c|x i d p g l1 l2 b c|x i d p g l1 l2 b c w Hl|x i d p g l1 l2 b c Hl|i p l b|i d p g l v b c|i d p g l];
      constructor; auto; cbn [inp dp ws fbuf] in *; rewrite ?fdel_app; cbn [fdelivered flat_map app]; rewrite ?app_nil_r; auto;
      try (eapply solo_upd; [exact So|reflexivity]);
      try (rewrite !map_app, !concat_app in *; cbn in *; rewrite ?app_nil_r in *; auto; fail).
    + destruct (i_pool _ _ _ I 1 H1) as [Ep Lp]. cbn in *. intros a w b0 E Hb. destruct (exists_last Hb) as (b' & y & ->).
      rewrite app_comm_cons, app_assoc in E. apply app_inj_tail in E. destruct E as [-> <-].
      assert (sum nonend (a ++ w :: b') = 0) as E0 by lia. rewrite sum_app, sum_cons in E0. destruct w; cbn in E0; try lia. eauto.
    + rewrite !map_app, !concat_app in *. cbn in *. rewrite ?app_nil_r in *. rewrite <- !app_assoc in *. exact Or.
    + destruct (solo_upd _ _ (WRun x a) _ So eq_refl) as [-> _]. pose proof (solo_rem _ _ So) as E0. rewrite !map_app, !concat_app in *. cbn in *. rewrite E0 in *. rewrite ?app_nil_r in *. cbn in *. rewrite <- !app_assoc in *. exact Or.
    + destruct (solo_upd _ _ (WRun x a) _ So eq_refl) as [-> _]. pose proof (solo_rem _ _ So) as E0. rewrite !map_app, !concat_app in *. cbn in *. rewrite E0 in *. rewrite ?app_nil_r in *. cbn in *. rewrite <- !app_assoc in *. exact Or.
    + rewrite <- !app_assoc in *. exact Or.
Qed.

Theorem one_worker : forall xs tr s, lim = Some 1 -> steps fstep (finit xs) tr s -> exists r, concat (map (fun x => outl (prog x)) xs) = fdelivered tr ++ r.
Proof. intros xs tr s H R. destruct (inv1_steps _ _ _ H R). eexists. rewrite <- j_ord0. rewrite <- !app_assoc. reflexivity. Qed.

Lemma takes_concat_len : forall (ls : list (list V)) s r, takes ls s r -> length (concat ls) = length s + length (concat r).
Proof.
  induction 1; auto. rewrite IHtakes, app_length, !concat_app, !app_length. cbn. rewrite !app_length. lia.
Qed.
Lemma takes_perm : forall (ls : list (list V)) s r, takes ls s r -> Permutation (concat ls) (s ++ concat r).
Proof.
  induction 1; auto. eapply Permutation_trans; [exact IHtakes|]. rewrite !concat_app. cbn. rewrite <- !app_assoc. apply Permutation_app_head. cbn.
  apply Permutation_sym. apply Permutation_cons_app. apply Permutation_refl.
Qed.
Lemma interleaving_perm : forall (ls : list (list V)) s, interleaving ls s -> Permutation s (concat ls).
Proof.
  intros ls s H. apply takes_perm in H. assert (E : concat (map (fun _ : list V => @nil V) ls) = []) by (clear; induction ls; auto).
  rewrite E, app_nil_r in H. now apply Permutation_sym.
Qed.
End Proofs.
