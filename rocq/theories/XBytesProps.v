(** * Properties C29, C30 *)
From Coq Require Import ZArith List Bool Lia.
From Verif Require Import GoBase Trans XBytesModel.
Import ListNotations.
Open Scope Z_scope.

Notation reach owned := (reachable init (step owned)).

(** Histories with disciplined callers are histories. *)
Lemma step_any : forall s l s', step true s l s' -> step false s l s'.
Proof. intros s l s' H. inversion H; subst; try discriminate; try (econstructor; eauto; fail). Qed.

Lemma reslice_ok : forall s b s', reslice s 0 b = Ok s' ->
  0 <= b <= scap s /\ blk s' = blk s /\ off s' = off s /\ slen s' = b /\ scap s' = scap s.
Proof.
  intros s b s' H. unfold reslice in H. destruct ((0 <=? 0) && (0 <=? b) && (b <=? scap s)) eqn:E; [|discriminate].
  inversion H; subst. rewrite !andb_true_iff, !Z.leb_le in E. cbn. repeat split; lia.
Qed.
Lemma reslice_panic : forall s b, reslice s 0 b = Panic <-> ~ (0 <= b <= scap s).
Proof.
  intros s b. unfold reslice. destruct ((0 <=? 0) && (0 <=? b) && (b <=? scap s)) eqn:E.
  - rewrite !andb_true_iff, !Z.leb_le in E. split; [discriminate|lia].
  - split; auto. intros _ H. rewrite !andb_false_iff, !Z.leb_gt in E. lia.
Qed.

Definition shape_inv (s : state) : Prop :=
  (forall k e, In (k, e) (pool s) -> scap e = k /\ 0 <= k /\ slen e = 0) /\
  (forall e, In e (live s) -> 0 <= slen e <= scap e).

Lemma malloc_new_ok : forall b size capacity s', malloc_new b size capacity = Ok s' ->
  0 <= size /\ blk s' = b /\ off s' = 0 /\ slen s' = size /\ scap s' = malloc_key size capacity.
Proof.
  intros b size capacity s' H. unfold malloc_new, make_empty in H.
  destruct (malloc_key size capacity <? 0) eqn:E; [discriminate|]. cbn [res_bind] in H.
  apply reslice_ok in H. cbn in H. tauto.
Qed.

Lemma shape_holds : forall owned s, reach owned s -> shape_inv s.
Proof.
  intros owned. apply invariant.
  - intros s (h & ->). split; intros; contradiction.
  - intros s l s' _ [IP IL] St. inversion St; subst; split; cbn [pool live] in *; try assumption.
    + intros k e He. apply IP. apply in_app_or in He. apply in_or_app. cbn. tauto.
    + intros e He. destruct (malloc_reuse s0 size) as [s1|] eqn:R; [|auto]. destruct He as [<-|He]; auto.
      apply reslice_ok in R. lia.
    + intros e He. destruct (malloc_new f size capacity) as [s1|] eqn:R; [|auto]. destruct He as [<-|He]; auto.
      apply malloc_new_ok in R. unfold malloc_key in R. destruct (size <? capacity) eqn:Q; [apply Z.ltb_lt in Q|]; lia.
    + intros k e [He|He]; auto. unfold free_entry in He. inversion He; subst. cbn.
      assert (0 <= slen s0 <= scap s0) by (apply IL; apply in_or_app; cbn; tauto). lia.
    + intros e He. apply IL. apply in_app_or in He. apply in_or_app. cbn. tauto.
    + intros k e [He|He]; auto. unfold free_entry in He. inversion He; subst. cbn. lia.
    + intros k e' He. apply IP. apply in_app_or in He. apply in_or_app. cbn. tauto.
    + intros e He. apply in_app_or in He. destruct He as [He|He].
      { apply IL. apply in_or_app. tauto. }
      apply in_app_or in He. destruct He as [He|He]; [|apply IL; apply in_or_app; cbn; tauto].
      rewrite Forall_forall in H. apply H in He. unfold within in He. lia.
    + intros e He. apply IL. apply in_app_or in He. apply in_or_app. cbn. tauto.
Qed.

(** ** C29: after any history (any Free calls whatsoever), any pool behaviour *)
Theorem C29_malloc : forall s size capacity r s', reach false s -> step false s (LMalloc size capacity r) s' ->
  (r = Panic <-> size < 0) /\
  (forall b, r = Ok b -> slen b = size /\ scap b = Z.max size capacity).
Proof.
  intros s size capacity r s' R St. destruct (shape_holds _ _ R) as [IP _]. inversion St; subst; cbn [pool] in *.
  - destruct (IP (malloc_key size capacity) s0) as (C & K & _); [apply in_or_app; cbn; auto|].
    unfold malloc_reuse. unfold malloc_key in *. destruct (Z.ltb_spec size capacity); split.
    + rewrite reslice_panic. lia.
    + intros b E. apply reslice_ok in E. lia.
    + rewrite reslice_panic. lia.
    + intros b E. apply reslice_ok in E. lia.
  - split.
    + unfold malloc_new, make_empty, malloc_key. destruct (Z.ltb_spec size capacity).
      * destruct (Z.ltb_spec capacity 0); cbn [res_bind]; [split; auto; lia|]. rewrite reslice_panic. cbn. lia.
      * destruct (Z.ltb_spec size 0); cbn [res_bind]; [split; auto; lia|]. rewrite reslice_panic. cbn. lia.
    + intros b E. apply malloc_new_ok in E. unfold malloc_key in E. destruct (Z.ltb_spec size capacity); lia.
Qed.

(** Malloc never blocks: in every state it can return (the pool may always call New). *)
Theorem C29_returns : forall owned s size capacity, exists r s', step owned s (LMalloc size capacity r) s'.
Proof. intros owned [p f h l] size capacity. eexists _, _. apply SNew. reflexivity. Qed.

(** MallocSize(n) is Malloc(n, n): length and capacity n. *)
Corollary C29_mallocsize : forall s n b s', reach false s -> step false s (LMalloc n n (Ok b)) s' -> slen b = n /\ scap b = n.
Proof. intros s n b s' R St. destruct (C29_malloc _ _ _ _ _ R St) as [_ H]. destruct (H b eq_refl). lia. Qed.

(** ** C30 *)

Lemma disjoint_sym : forall a b, disjoint a b -> disjoint b a.
Proof. unfold disjoint; eauto. Qed.

Lemma pd_app : forall a b, pairwise_disjoint (a ++ b) <->
  pairwise_disjoint a /\ pairwise_disjoint b /\ (forall x y, In x a -> In y b -> disjoint x y).
Proof.
  induction a as [|x a IH]; intros b; cbn; [split; [intros; repeat split; auto; intros ? ? []|tauto]|].
  rewrite Forall_app, IH, !Forall_forall. split.
  - intros ((A & B) & C & D & E). split; [split; auto|]. split; auto. intros u v [<-|Hu] Hv; auto.
  - intros ((A & B) & C & D). split; [split; auto|]. split; auto.
Qed.

Lemma pd_middle : forall a x b, pairwise_disjoint (a ++ x :: b) ->
  pairwise_disjoint (a ++ b) /\ (forall y, In y (a ++ b) -> disjoint x y).
Proof.
  intros a x b H. apply pd_app in H. destruct H as (A & B & C). cbn in B. destruct B as [B1 B2]. rewrite Forall_forall in B1.
  split; [apply pd_app; repeat split; auto; intros u v Hu Hv; apply C; cbn; auto|].
  intros y Hy. apply in_app_or in Hy. destruct Hy as [Hy|Hy]; auto. apply disjoint_sym, C; cbn; auto.
Qed.

Lemma pd_insert : forall a x b, pairwise_disjoint (a ++ b) -> (forall y, In y (a ++ b) -> disjoint x y) ->
  pairwise_disjoint (a ++ x :: b).
Proof.
  intros a x b H D. apply pd_app in H. destruct H as (A & B & C). apply pd_app. split; auto. split.
  - cbn. split; auto. apply Forall_forall. intros y Hy. apply D. apply in_or_app; auto.
  - intros u v Hu [<-|Hv]; auto. apply disjoint_sym, D, in_or_app; auto.
Qed.

(** every region: held by callers, or pooled *)
Definition regions (s : state) : list slice_v := live s ++ map snd (pool s).
Definition own_inv (s : state) : Prop :=
  pairwise_disjoint (regions s) /\ (forall e, In e (regions s) -> (blk e < fresh s)%nat).

Lemma owns_same : forall a b, blk a = blk b -> off a = off b -> scap a = scap b -> forall c, owns a c -> owns b c.
Proof. unfold owns. intros a b -> -> -> c H. exact H. Qed.

Lemma own_holds : forall s, reach true s -> own_inv s.
Proof.
  intros s R. revert s R. apply invariant.
  - intros s (h & ->). split; cbn; auto. intros e [].
  - intros s l s' R [PD BL] St. unfold own_inv, regions in *.
    inversion St; subst; cbn [pool live fresh] in *.
    + (* reuse *) rewrite !map_app, map_cons in *. cbn [snd] in *.
      rewrite app_assoc in PD. apply pd_middle in PD. destruct PD as [PD D]. rewrite <- app_assoc in PD, D.
      assert (B0 : forall e, In e (l0 ++ map snd p1 ++ map snd p2) -> (blk e < f)%nat).
      { intros e He. apply BL. apply in_app_or in He. apply in_or_app. destruct He as [He|He]; auto. right.
        apply in_app_or in He. apply in_or_app. cbn. tauto. }
      destruct (malloc_reuse s0 size) as [s1|] eqn:E; [|split; auto].
      apply reslice_ok in E. destruct E as (_ & E1 & E2 & E3 & E4). cbn [app]. split.
      * cbn. split; auto. apply Forall_forall. intros y Hy c Hc. apply (D y Hy c). now apply (owns_same s1 s0).
      * intros e [<-|He]; auto. rewrite E1. apply BL. apply in_or_app. right. apply in_or_app. cbn. auto.
    + (* new *) destruct (malloc_new f size capacity) as [s1|] eqn:E.
      * apply malloc_new_ok in E. destruct E as (_ & E1 & _). cbn [app]. split.
        -- cbn. split; auto. apply Forall_forall. intros y Hy c [A1 _] [B1 _]. apply BL in Hy. lia.
        -- intros e [<-|He]; [lia|]. apply BL in He. lia.
      * split; auto. intros e He. apply BL in He. lia.
    + (* free *) rewrite <- app_assoc in PD. cbn [app] in PD. apply pd_middle in PD. destruct PD as [PD D].
      cbn [map snd free_entry]. rewrite <- app_assoc. split.
      * rewrite app_assoc. apply pd_insert; rewrite <- app_assoc; auto.
      * intros e He. apply in_app_or in He. destruct He as [He|He]; [apply BL, in_or_app; left; apply in_or_app; auto|].
        apply in_app_or in He. destruct He as [He|[<-|He]].
        -- apply BL, in_or_app; left; apply in_or_app; cbn; auto.
        -- cbn. apply BL, in_or_app; left; apply in_or_app; cbn; auto.
        -- apply BL, in_or_app; auto.
    + discriminate.
    + (* pool drop *) rewrite !map_app, map_cons in *. rewrite app_assoc in PD. apply pd_middle in PD. destruct PD as [PD _].
      rewrite <- app_assoc in PD. split; auto. intros x Hx. apply BL. apply in_app_or in Hx. apply in_or_app.
      destruct Hx as [Hx|Hx]; auto. right. apply in_app_or in Hx. apply in_or_app. cbn. tauto.
    + (* split *) rewrite <- app_assoc in PD. cbn [app] in PD. apply pd_middle in PD. destruct PD as [PD D].
      rewrite Forall_forall in H. rewrite <- !app_assoc. apply pd_app in PD. destruct PD as (P1 & P2 & P3).
      assert (Sub : forall q c, In q parts -> owns q c -> owns s0 c).
      { intros q c Hq [O1 O2]. apply H in Hq. destruct Hq as (Q1 & Q2 & Q3 & Q4). split; [congruence|lia]. }
      split.
      * apply pd_app. split; auto. split.
        -- apply pd_app. split; auto. split; auto. intros x y Hx Hy c Hc1 Hc2.
           apply (D y) with c; eauto. apply in_or_app; auto.
        -- intros x y Hx Hy. apply in_app_or in Hy. destruct Hy as [Hy|Hy]; auto.
           intros c Hc1 Hc2. apply (D x) with c; eauto. apply in_or_app; auto.
      * intros e He. apply in_app_or in He. destruct He as [He|He].
        { apply BL, in_or_app. left. apply in_or_app; auto. }
        apply in_app_or in He. destruct He as [He|He].
        { destruct (H e He) as (-> & _). apply BL, in_or_app; left; apply in_or_app; cbn; auto. }
        apply in_app_or in He. apply BL. destruct He as [He|He]; apply in_or_app; [left; apply in_or_app; cbn; auto|auto].
    + (* forget *) rewrite <- app_assoc in *. cbn [app] in PD. apply pd_middle in PD. destruct PD as [PD _]. split; auto.
      intros e He. apply BL. apply in_app_or in He. apply in_or_app. cbn. tauto.
    + split; auto.
Qed.

(** No two buffers callers hold share a byte of capacity, whatever happened before. *)
Theorem C30_disjoint : forall s l1 a l2 b l3, reach true s -> live s = l1 ++ a :: l2 ++ b :: l3 ->
  forall c, owns a c -> owns b c -> False.
Proof.
  intros s l1 a l2 b l3 R E. destruct (own_holds s R) as [PD _]. unfold regions in PD. rewrite E, <- app_assoc in PD.
  cbn [app] in PD. apply pd_middle in PD. destruct PD as [_ D]. apply (D b).
  apply in_or_app; right. apply in_or_app; left. apply in_or_app; right. cbn; auto.
Qed.

(** In particular the visible bytes are disjoint. *)
Lemma shows_owns : forall s l1 a l2 c, reach true s -> live s = l1 ++ a :: l2 -> shows a c -> owns a c.
Proof.
  intros s l1 a l2 c R E [H1 H2]. destruct (shape_holds _ _ R) as [_ IL].
  assert (0 <= slen a <= scap a) by (apply IL; rewrite E; apply in_or_app; cbn; auto). split; auto. lia.
Qed.

(** What a caller holds changes only through writes it makes itself. *)
Theorem C30_contents_stable : forall s l s' l1 a l2, reach true s -> step true s l s' ->
  live s = l1 ++ a :: l2 -> (forall i v, l <> LWrite a i v) -> forall c, owns a c -> heap s' c = heap s c.
Proof.
  intros s l s' l1 a l2 R St E N c Hc. destruct (own_holds s R) as [PD BL].
  assert (Ina : In a (live s)) by (rewrite E; apply in_or_app; cbn; auto).
  destruct St; cbn [heap live fresh] in *; auto.
  - unfold zero_block. destruct (Nat.eqb_spec (fst c) f) as [e|]; auto. exfalso.
    assert (blk a < f)%nat by (apply BL; unfold regions; cbn; apply in_or_app; auto). destruct Hc as [Hc _]. lia.
  - destruct (Nat.eqb_spec (fst c) (blk s)) as [e|]; cbn [andb]; auto.
    destruct (Z.eqb_spec (snd c) (off s + i)) as [e2|]; auto. exfalso.
    assert (Hs : owns s c).
    { destruct (shape_holds _ _ R) as [_ IL]. assert (0 <= slen s <= scap s) by (apply IL; cbn; apply in_or_app; cbn; auto).
      split; auto. lia. }
    assert (a = s \/ disjoint s a).
    { apply in_app_or in Ina. cbn in Ina. unfold regions in PD. cbn in PD. rewrite <- app_assoc in PD. cbn [app] in PD.
      apply pd_middle in PD. destruct PD as [_ D]. destruct Ina as [Ina|[->|Ina]]; auto; right; apply D; apply in_or_app; auto.
      right. apply in_or_app; auto. }
    destruct H0 as [->|D]; [now apply (N i v)|]. eapply D; eauto.
Qed.

(** Without the discipline two outstanding buffers can be the same memory. *)
Theorem C30_double_free_refuted : exists s a b, reach false s /\ live s = [a; b] /\ slen a = 1 /\
  exists c, shows a c /\ shows b c.
Proof.
  set (h := fun _ : cell => 0). set (b0 := SL 0 0 1 1).
  exists (St [] 1 (zero_block h 0) [b0; b0]), b0, b0.
  split; [|split; [reflexivity|split; [reflexivity|exists (0%nat, 0); split; split; cbn; auto; lia]]].
  assert (S0 : reach false (St [] 0 h [])) by (apply reach_init; exists h; reflexivity).
  assert (S1 : reach false (St [] 1 (zero_block h 0) [b0])).
  { eapply reach_step; [exact S0|]. apply (SNew false [] 0 h [] 1 1 (Ok b0)). reflexivity. }
  assert (S2 : reach false (St [free_entry b0] 1 (zero_block h 0) [])).
  { eapply reach_step; [exact S1|]. apply (SFreeOwned false [] 1 (zero_block h 0) [] b0 []). }
  assert (S3 : reach false (St [free_entry b0; free_entry b0] 1 (zero_block h 0) [])).
  { eapply reach_step; [exact S2|]. apply SFreeAny; auto; cbn; lia. }
  assert (S4 : reach false (St [free_entry b0] 1 (zero_block h 0) [b0])).
  { eapply reach_step; [exact S3|]. apply (SReuse false [] (SL 0 0 0 1) [free_entry b0] 1 (zero_block h 0) [] 1 1 (Ok b0)). reflexivity. }
  eapply reach_step; [exact S4|]. apply (SReuse false [] (SL 0 0 0 1) [] 1 (zero_block h 0) [b0] 1 1 (Ok b0)). reflexivity.
Qed.

(** A recycled buffer shows its previous owner's bytes. *)
Theorem C30_stale_refuted : exists s s' b, reach true s /\ step true s (LMalloc 1 1 (Ok b)) s' /\
  exists c, shows b c /\ heap s' c = 7.
Proof.
  set (h := fun _ : cell => 0). set (b0 := SL 0 0 1 1).
  set (h1 := fun c : cell => if Nat.eqb (fst c) 0 && (snd c =? 0 + 0) then 7 else zero_block h 0 c).
  exists (St [free_entry b0] 1 h1 []), (St [] 1 h1 [b0]), b0.
  assert (S0 : reach true (St [] 0 h [])) by (apply reach_init; exists h; reflexivity).
  assert (S1 : reach true (St [] 1 (zero_block h 0) [b0])).
  { eapply reach_step; [exact S0|]. apply (SNew true [] 0 h [] 1 1 (Ok b0)). reflexivity. }
  assert (S2 : reach true (St [] 1 h1 [b0])).
  { eapply reach_step; [exact S1|]. apply (SWrite true [] 1 (zero_block h 0) [] b0 [] 0 7). cbn. lia. }
  assert (S3 : reach true (St [free_entry b0] 1 h1 [])).
  { eapply reach_step; [exact S2|]. apply (SFreeOwned true [] 1 h1 [] b0 []). }
  split; auto. split; [apply (SReuse true [] (SL 0 0 0 1) [] 1 h1 [] 1 1 (Ok b0)); reflexivity|].
  exists (0%nat, 0). split; [split; cbn; auto; lia|reflexivity].
Qed.

(** A state with two live buffers and one pooled: the hypotheses are met. *)
Example C29_ex : exists s, reach true s /\ length (live s) = 2%nat /\ pool s <> [].
Proof.
  set (h := fun _ : cell => 0).
  assert (S0 : reach true (St [] 0 h [])) by (apply reach_init; exists h; reflexivity).
  assert (S1 := reach_step _ _ _ _ _ S0 (SNew true [] 0 h [] 4 8 (Ok (SL 0 0 4 8)) eq_refl)).
  assert (S2 := reach_step _ _ _ _ _ S1 (SNew true _ _ _ _ 2 1 (Ok (SL 1 0 2 2)) eq_refl)).
  assert (S3 := reach_step _ _ _ _ _ S2 (SNew true _ _ _ _ 3 3 (Ok (SL 2 0 3 3)) eq_refl)).
  eexists. split; [eapply reach_step; [exact S3|]; apply (SFreeOwned true _ _ _ [] (SL 2 0 3 3))|].
  split; [reflexivity|discriminate].
Qed.

Print Assumptions C29_malloc. Print Assumptions C30_disjoint. Print Assumptions C30_contents_stable.
