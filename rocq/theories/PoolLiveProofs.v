(** * The calls of xbytes end (C87): proofs *)
From Coq Require Import ZArith List Bool Lia Arith String.
From stdpp Require Import gmap strings.
From Verif Require Import GoBase Trans MapConcSpec MapConcModel MapClrSpec MapClrModel MapLiveSpec MapLiveProofs PoolModel PoolProofs.
From Verif Require XBytesModel.
Import ListNotations.
Open Scope nat_scope.

(** ** The whole history of a Map is bounded by the number of its calls *)
Section Whole.
Context {K : Type} `{Countable K} {V : Type} `{EqDecision V}.
Definition bnd (n : nat) : nat := n * (19 + 2 * n + 3 * n * (n + 2)).
Lemma bnd_mono : forall a b, a <= b -> bnd a <= bnd b.
Proof. intros a b L. unfold bnd. apply Nat.mul_le_mono; [auto|]. assert (3 * a * (a + 2) <= 3 * b * (b + 2)) by (apply Nat.mul_le_mono; lia). lia. Qed.
Lemma whole : forall (tr tr2 : list (label K V)) s, exec cinit kstep (tr ++ tr2) s -> (forall l, In l tr2 -> new_call l = false) ->
  length (tr ++ tr2) <= calls tr + S (calls tr) * bnd (calls tr).
Proof.
  induction tr as [|l tr IH] using rev_ind; intros tr2 s X N.
  - destruct (exec_app_inv _ _ _ _ _ X) as (s1 & X1 & R). pose proof (rest_bound _ _ _ _ X1 R N) as B. cbn in *. lia.
  - destruct (new_call l) eqn:E.
    + destruct (exec_app_inv _ _ _ _ _ X) as (s1 & X1 & R). pose proof (rest_bound _ _ _ _ X1 R N) as B. fold (bnd (calls (tr ++ [l]))) in B.
      destruct (exec_app_inv _ _ _ _ _ X1) as (s2 & X2 & _).
      assert (A := IH [] s2). rewrite app_nil_r in A. specialize (A X2 (fun _ F => False_ind _ F)).
      rewrite calls_snoc, E in *. rewrite !app_length. cbn [length]. pose proof (bnd_mono (calls tr) (calls tr + 1) ltac:(lia)) as M.
      replace (calls tr + 1) with (S (calls tr)) in * by lia. assert (S (calls tr) * bnd (calls tr) <= S (calls tr) * bnd (S (calls tr))) by (apply Nat.mul_le_mono_l; auto). lia.
    + rewrite <- app_assoc in X |- *. rewrite calls_snoc, E, Nat.add_0_r. eapply IH; eauto. intros x [<-|I]; auto.
Qed.
End Whole.

(** ** Counting *)
Lemma count_snoc : forall f tr l, count f (tr ++ [l]) = count f tr + if f l then 1 else 0.
Proof. intros f tr l. unfold count. rewrite List.filter_app, app_length. cbn. destruct (f l); cbn; lia. Qed.

Definition w (p : gpc) : nat := match p with GDo _ _ => 3 | GRun _ _ _ | GPub _ _ _ _ | GWait _ _ _ => 2 | GGot _ _ => 1 | _ => 0 end.
Definition d (p : gpc) : nat := match p with GDo _ _ => 1 | _ => 0 end.
Definition mvs (trm : list (label Z pool_t)) : nat := length trm - calls trm.
Record Cnt (tr : list glabel) (s : gst) (trm : list (label Z pool_t)) (L : list nat) : Prop := {
  c_ex : exec cinit cstep trm (mp s);
  c_nd : List.NoDup L;
  c_in : forall t, gp s t <> GIdle -> In t L;
  c_mv : calls trm <= length trm;
  c_go : count goes tr + sumf w (gp s) L <= 3 * count begins tr + mvs trm;
  c_cl : calls trm + sumf d (gp s) L <= count begins tr
}.
Lemma sum_cons : forall f (g : nat -> gpc) t L, f GIdle = 0 -> List.NoDup L -> (forall u, g u <> GIdle -> In u L) -> g t = GIdle -> forall x,
  exists L', List.NoDup L' /\ (forall u, upd g t x u <> GIdle -> In u L') /\ L' = if in_dec Nat.eq_dec t L then L else t :: L.
Proof.
  intros f g t L F ND IN G x. eexists. split; [|split; [|reflexivity]].
  - destruct (in_dec Nat.eq_dec t L); auto. now constructor.
  - intros u U. destruct (Nat.eq_dec u t) as [->|N].
    + destruct (in_dec Nat.eq_dec t L); [auto|now left].
    + rewrite upd_other in U by auto. apply IN in U. destruct (in_dec Nat.eq_dec t L); [auto|now right].
Qed.
Lemma sum_new : forall (f : gpc -> nat) g t L x, f GIdle = 0 -> List.NoDup L -> g t = GIdle ->
  sumf f (upd g t x) (if in_dec Nat.eq_dec t L then L else t :: L) = sumf f g L + f x.
Proof.
  intros f g t L x F ND G. destruct (in_dec Nat.eq_dec t L) as [I|I].
  - pose proof (sumf_upd _ f g t x L ND I) as E. rewrite G, F in E. lia.
  - pose proof (sumf_out _ f g t x L I) as E. unfold sumf in *. cbn [map list_sum fold_right]. rewrite upd_same. unfold list_sum in *. rewrite E. lia.
Qed.
Lemma mvs_snoc : forall (trm : list (label Z pool_t)) l, calls trm <= length trm ->
  calls (trm ++ [l]) <= length (trm ++ [l]) /\ mvs (trm ++ [l]) = mvs trm + if new_call l then 0 else 1.
Proof. intros trm l L. unfold mvs. rewrite calls_snoc, app_length. cbn. destruct (new_call l); lia. Qed.

Lemma cnt_begin : forall tr m f n b x g t p b' x' trm L, Cnt tr (GST m f n b x g) trm L -> g t = GIdle -> w p = 3 -> d p = 1 ->
  exists L', Cnt (tr ++ [GCall t]) (GST m f n b' x' (upd g t p)) trm L'.
Proof.
  intros tr m f n b x g t p b' x' trm L [X ND IN MV GO CL] G W D. cbn [gp mp] in *.
  destruct (sum_cons w g t L eq_refl ND IN G p) as (L' & N' & I' & ->). eexists. constructor; cbn [gp mp]; eauto.
  - rewrite sum_new by auto. rewrite !count_snoc. cbn. lia.
  - rewrite sum_new by auto. rewrite !count_snoc. cbn. lia.
Qed.
Lemma cnt_go : forall tr m f n b x g t p f' n' b' x' trm L l, Cnt tr (GST m f n b x g) trm L -> g t <> GIdle -> begins l = false ->
  S (w p) <= w (g t) -> d p <= d (g t) -> Cnt (tr ++ [l]) (GST m f' n' b' x' (upd g t p)) trm L.
Proof.
  intros tr m f n b x g t p f' n' b' x' trm L l [X ND IN MV GO CL] G B W D. cbn [gp mp] in *. constructor; cbn [gp mp]; auto.
  - intros u U. destruct (Nat.eq_dec u t) as [->|N]; [auto|]. rewrite upd_other in U by auto. auto.
  - pose proof (sumf_upd _ w g t p L ND (IN t G)). rewrite !count_snoc, B. destruct (goes l); lia.
  - pose proof (sumf_upd _ d g t p L ND (IN t G)). rewrite !count_snoc, B. lia.
Qed.
Lemma cnt_still : forall tr m f n b x g b' x' trm L l, Cnt tr (GST m f n b x g) trm L -> goes l = false -> begins l = false ->
  Cnt (tr ++ [l]) (GST m f n b' x' g) trm L.
Proof.
  intros tr m f n b x g b' x' trm L l [X ND IN MV GO CL] G B. cbn [gp mp] in *. constructor; cbn [gp mp]; auto; rewrite !count_snoc, ?G, ?B; lia.
Qed.
Lemma cnt_map : forall tr h q f n b x g t k c j p f' n' b' x' trm L l ml h' q', Cnt tr (GST (St h q) f n b x g) trm L -> g t = GRun k c j -> begins l = false ->
  w p <= 2 -> d p = 0 -> new_call ml = false -> tstep t h (q t) ml h' q' -> Cnt (tr ++ [l]) (GST (St h' (upd q t q')) f' n' b' x' (upd g t p)) (trm ++ [ml]) L.
Proof.
  intros tr h q f n b x g t k c j p f' n' b' x' trm L l ml h' q' [X ND IN MV GO CL] G B W D NC T. cbn [gp mp] in *.
  destruct (mvs_snoc trm ml MV) as (MV' & MS). assert (IT : In t L) by (apply IN; congruence).
  constructor; cbn [gp mp]; auto.
  - eapply exec_snoc; eauto. now constructor.
  - intros u U. destruct (Nat.eq_dec u t) as [->|N]; [auto|]. rewrite upd_other in U by auto. auto.
  - pose proof (sumf_upd _ w g t p L ND IT) as E. rewrite G in E. cbn in E. rewrite MS, NC, !count_snoc, B. destruct (goes l); lia.
  - pose proof (sumf_upd _ d g t p L ND IT) as E. rewrite G in E. cbn in E. rewrite calls_snoc, NC, !count_snoc, B. lia.
Qed.
Lemma cnt_map_same : forall tr h q f n b x g t k c j f' n' b' x' trm L l ml h' q', Cnt tr (GST (St h q) f n b x g) trm L -> g t = GRun k c j -> begins l = false ->
  new_call ml = false -> tstep t h (q t) ml h' q' -> Cnt (tr ++ [l]) (GST (St h' (upd q t q')) f' n' b' x' g) (trm ++ [ml]) L.
Proof.
  intros tr h q f n b x g t k c j f' n' b' x' trm L l ml h' q' [X ND IN MV GO CL] G B NC T. cbn [gp mp] in *.
  destruct (mvs_snoc trm ml MV) as (MV' & MS). constructor; cbn [gp mp]; auto.
  - eapply exec_snoc; eauto. now constructor.
  - rewrite MS, NC, !count_snoc, B. destruct (goes l); lia.
  - rewrite calls_snoc, NC, !count_snoc, B. lia.
Qed.

Lemma cnt_step : forall owned tr s l s' trm L, Cnt tr s trm L -> gstep owned s l s' -> exists trm' L', Cnt (tr ++ [l]) s' trm' L'.
Proof.
  intros owned tr s l s' trm L C St. inversion St; subst; clear St.
  - destruct (cnt_begin _ _ _ _ _ _ _ t (GDo (XBytesModel.malloc_key size capacity) (JMalloc size capacity)) b x _ _ C) as (L' & C'); eauto.
  - destruct (cnt_begin _ _ _ _ _ _ _ t (GDo (XBytesModel.scap s0) JFree) (BM p a h (l1 ++ l2)) (<[t:=s0]> x) _ _ C) as (L' & C'); eauto.
  - destruct (cnt_begin _ _ _ _ _ _ _ t (GDo (XBytesModel.scap s0) (JFreeAny s0)) b x _ _ C) as (L' & C'); eauto.
  - (* GSLead *)
    destruct C as [X ND IN MV GO CL]. cbn [gp mp] in *. exists (trm ++ [LCall t (cia c)]), L.
    destruct (mvs_snoc trm (LCall t (cia c)) MV) as (MV' & MS). assert (IT : In t L) by (apply IN; congruence). cbn [new_call] in MS.
    constructor; cbn [gp mp]; auto.
    + eapply exec_snoc; eauto.
    + intros u U. destruct (Nat.eq_dec u t) as [->|N]; [auto|]. rewrite upd_other in U by auto. auto.
    + pose proof (sumf_upd _ w g t (GRun k c j) L ND IT) as E. rewrite H in E. cbn in E. rewrite MS, !count_snoc. cbn. lia.
    + pose proof (sumf_upd _ d g t (GRun k c j) L ND IT) as E. rewrite H in E. cbn in E. rewrite calls_snoc, !count_snoc. cbn. lia.
  - exists trm, L. eapply cnt_go; eauto; rewrite ?H; cbn; try discriminate; lia.
  - exists (trm ++ [LTau]), L. eapply cnt_map_same; eauto.
  - eexists (trm ++ [_]), L. eapply cnt_map_same; eauto. reflexivity.
  - eexists (trm ++ [_]), L. eapply cnt_map; eauto; try reflexivity; cbn; lia.
  - eexists (trm ++ [_]), L. eapply cnt_map; eauto; try reflexivity.
  - exists trm, L. eapply cnt_go; eauto; rewrite ?H; cbn; try discriminate; lia.
  - eexists (trm ++ [_]), L. eapply cnt_map; eauto; try reflexivity; cbn; lia.
  - exists trm, L. eapply cnt_go; eauto; rewrite ?H; cbn; try discriminate; lia.
  - exists trm, L. eapply cnt_go; eauto; rewrite ?H; cbn; try discriminate; lia.
  - exists trm, L. eapply cnt_go; eauto; rewrite ?H; cbn; try discriminate; lia.
  - exists trm, L. eapply cnt_go; eauto; rewrite ?H; cbn; try discriminate; lia.
  - exists trm, L. eapply cnt_go; eauto; rewrite ?H; cbn; try discriminate; lia.
  - exists trm, L. eapply cnt_still; eauto.
  - exists trm, L. eapply cnt_still; eauto; destruct u; try discriminate; reflexivity.
Qed.
Lemma cnt_exec : forall owned tr s, exec ginit (gstep owned) tr s -> exists trm L, Cnt tr s trm L.
Proof.
  intros owned. apply exec_ind_inv.
  - intros s (m & h & M & ->). exists [], []. constructor; cbn; auto; try lia; try constructor; try congruence. now apply exec_nil.
  - intros tr s l s' X (trm & L & C) St. eapply cnt_step; eauto.
Qed.
Lemma bounded : forall owned tr s, exec ginit (gstep owned) tr s ->
  count goes tr <= 3 * count begins tr + S (count begins tr) * bnd (count begins tr).
Proof.
  intros owned tr s X. destruct (cnt_exec _ _ _ X) as (trm & L & C).
  pose proof (whole trm [] (mp s)) as W. rewrite app_nil_r in W. specialize (W (c2k _ _ (c_ex _ _ _ _ C)) (fun _ F => False_ind _ F)).
  pose proof (c_go _ _ _ _ C). pose proof (c_cl _ _ _ _ C). unfold mvs in *.
  pose proof (bnd_mono (calls trm) (count begins tr) ltac:(lia)). 
  assert (S (calls trm) * bnd (calls trm) <= S (count begins tr) * bnd (count begins tr)) by (apply Nat.mul_le_mono; lia). lia.
Qed.
