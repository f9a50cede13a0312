(** * Properties C31, C32 *)
From Coq Require Import ZArith List Bool Lia Permutation.
From Verif Require Import GoBase Trans XIOModel XIOSpec.
Import ListNotations.
Open Scope Z_scope.

Notation rexec := (exec rinit rstep).
Notation wexec := (exec winit wstep).

(** ** Readers *)

Definition rinv (s : rstate) : Prop :=
  NoDup (rheld s ++ rpool s) /\ (forall i, In i (rheld s ++ rpool s) -> (i < rnext s)%nat).

Lemma nodup_middle : forall (a b : list nat) x, NoDup (a ++ x :: b) -> NoDup (a ++ b) /\ ~ In x (a ++ b).
Proof. intros. split; [eapply NoDup_remove_1; eauto|eapply NoDup_remove_2; eauto]. Qed.

Lemma nodup_perm : forall (a b : list nat), Permutation a b -> NoDup a -> NoDup b.
Proof. intros a b P. eapply Permutation_NoDup; eauto. Qed.

Lemma no_alias_snoc : forall t l, no_alias (t ++ [l]) -> no_alias t.
Proof. intros t l H size i X. apply (H size i). apply in_or_app; auto. Qed.
Lemma no_alias_last : forall t l size i, no_alias (t ++ [l]) -> l <> RGet size (Obj i) i.
Proof. intros t l size i H ->. apply (H size i). apply in_or_app; cbn; auto. Qed.

Lemma rinv_step : forall s l s', rinv s -> rstep s l s' ->
  (forall size i, l <> RGet size (Obj i) i) -> rinv s'.
Proof.
  intros s l s' [ND LT] St NO. inversion St; subst; unfold rinv; cbn [rheld rpool rnext] in *; try (split; assumption).
  - rewrite H in *.
    assert (P : Permutation (rheld s ++ p1 ++ id :: p2) ((id :: rheld s) ++ p1 ++ p2)).
    { cbn. rewrite app_assoc. symmetry. rewrite app_assoc. apply Permutation_middle. }
    split; [eapply nodup_perm; eauto|]. intros i Hi. apply LT. eapply Permutation_in; [symmetry; exact P|exact Hi].
  - split.
    + cbn. constructor; auto. intros X. apply LT in X. lia.
    + intros i [<-|Hi]; [lia|]. apply LT in Hi. lia.
  - unfold reuses in H. destruct src as [n|j]; [discriminate|]. destruct (size <=? rsize (robjs s j)); [|discriminate].
    injection H as ->. exfalso. now apply (NO size i).
  - split.
    + cbn. constructor; auto. intros X. apply LT in X. lia.
    + intros i [<-|Hi]; [lia|]. apply LT in Hi. lia.
  - rewrite H in *.
    assert (P : Permutation ((h1 ++ id :: h2) ++ rpool s) ((h1 ++ h2) ++ id :: rpool s)).
    { rewrite <- !app_assoc. cbn. transitivity (id :: h1 ++ h2 ++ rpool s).
      - symmetry. apply Permutation_middle.
      - rewrite !app_assoc. apply Permutation_middle. }
    split; [eapply nodup_perm; eauto|]. intros i Hi. apply LT. eapply Permutation_in; [symmetry; exact P|exact Hi].
  - rewrite H in *. rewrite app_assoc in *. apply nodup_middle in ND. destruct ND as [ND _]. split; auto.
    intros i Hi. apply LT. apply in_app_or in Hi. apply in_or_app. cbn. tauto.
Qed.

Lemma rinv_exec : forall tr s, rexec tr s -> no_alias tr -> rinv s.
Proof.
  apply (exec_ind_inv rinit rstep (fun tr s => no_alias tr -> rinv s)).
  - intros s (A & B & C) _. unfold rinv. rewrite A, B, C. split; [constructor|]. intros i [].
  - intros tr s l s' _ IH St RO. apply no_alias_snoc in RO as RO'. eapply rinv_step; eauto.
    intros size i. eapply no_alias_last; eauto.
Qed.

Lemma filled_app : forall id a b, filled id (a ++ b) = filled id a ++ filled id b.
Proof. induction a as [|l a IH]; intros b; auto. destruct l; cbn; auto. rewrite IH. now rewrite app_assoc. Qed.
Lemma delivered_app : forall id a b, delivered id (a ++ b) = delivered id a ++ delivered id b.
Proof. induction a as [|l a IH]; intros b; auto. destruct l; cbn; auto. rewrite IH. now rewrite app_assoc. Qed.

Lemma held_not_pool : forall s id p1 p2, rinv s -> In id (rheld s) -> rpool s = p1 ++ id :: p2 -> False.
Proof.
  intros s id p1 p2 [ND _] H E. rewrite E in ND. rewrite app_assoc in ND. apply nodup_middle in ND. destruct ND as [_ ND].
  apply ND. apply in_or_app. left. apply in_or_app. auto.
Qed.

(** From its Get on, until its Put, everything a handle delivers came from the reader
    given to that Get, in order; errors are that reader's.  Unless some Get returned the
    very bufio.Reader it was given (see C31_same and C31_alias_refuted below). *)
Theorem C31_isolated : forall t1 size src0 id t2 s,
  rexec (t1 ++ RGet size src0 id :: t2) s -> no_alias (t1 ++ RGet size src0 id :: t2) -> ~ In (RPut id) t2 ->
  (exists buffered, filled id t2 = delivered id t2 ++ buffered) /\
  (forall src bs e, In (RFill id src bs e) t2 -> src = src0) /\
  (forall e, In (RErr id e) t2 -> exists bs, In (RFill id src0 bs (Some e)) t2).
Proof.
  intros t1 size src0 id t2 s (s0 & Hi & R) RO NP.
  change (t1 ++ RGet size src0 id :: t2) with (t1 ++ [RGet size src0 id] ++ t2) in *.
  rewrite app_assoc in *. apply steps_app_inv in R. destruct R as (s1 & R1 & R2).
  assert (G : forall tr s', steps rstep s1 tr s' -> no_alias (((t1 ++ [RGet size src0 id]) ++ tr)) -> ~ In (RPut id) tr ->
    rinv s' /\ In id (rheld s') /\ rsrc (robjs s' id) = Some src0 /\
    filled id tr = delivered id tr ++ rpend (robjs s' id) /\
    (forall e, rerr (robjs s' id) = Some e -> exists bs, In (RFill id src0 bs (Some e)) tr) /\
    (forall src bs e, In (RFill id src bs e) tr -> src = src0) /\
    (forall e, In (RErr id e) tr -> exists bs, In (RFill id src0 bs (Some e)) tr)).
  { intros tr s' H. induction H as [|tr s2 l s3 R IH St]; intros RO1 NP1.
    - rewrite app_nil_r in RO1. assert (I1 : rinv s1) by (eapply rinv_exec; [exists s0; eauto|auto]).
      split; auto.
      assert (In id (rheld s1) /\ rsrc (robjs s1 id) = Some src0 /\ rpend (robjs s1 id) = [] /\ rerr (robjs s1 id) = None) as (A & B & C & D).
      { apply steps_app_inv in R1. destruct R1 as (s2 & R1 & St). apply steps_cons_inv in St. destruct St as (s3 & St & E).
        apply steps_nil_inv in E. subst s3. inversion St; subst; cbn [rheld robjs]; unfold set_robj; rewrite ?upd_same; cbn; auto.
        unfold reuses in H4. destruct src0 as [n|j]; [discriminate|]. destruct (size <=? rsize (robjs s2 j)); [|discriminate].
        injection H4 as ->. exfalso. apply (RO size id). apply in_or_app. left. apply in_or_app; cbn; auto. }
      rewrite B, C, D. repeat split; auto; try discriminate; try (intros; contradiction).
    - rewrite app_assoc in RO1. apply no_alias_snoc in RO1 as RO2.
      destruct IH as (I2 & A & B & C & D & F & G); auto. { intros X. apply NP1. apply in_or_app; auto. }
      assert (I3 : rinv s3).
      { eapply rinv_step; eauto. intros sz i. eapply no_alias_last; eauto. }
      split; auto.
      assert (NPl : l <> RPut id) by (intros ->; apply NP1; apply in_or_app; cbn; auto).
      assert (F' : forall src bs e, In (RFill id src bs e) (tr ++ [l]) -> l = RFill id src bs e \/ src = src0).
      { intros src bs e X. apply in_app_or in X. destruct X as [X|[->|[]]]; eauto. }
      assert (Keep : forall e, (exists bs, In (RFill id src0 bs (Some e)) tr) -> exists bs, In (RFill id src0 bs (Some e)) (tr ++ [l])).
      { intros e (bs & X). exists bs. apply in_or_app; auto. }
      assert (G' : forall e, In (RErr id e) (tr ++ [l]) -> l = RErr id e \/ exists bs, In (RFill id src0 bs (Some e)) (tr ++ [l])).
      { intros e X. apply in_app_or in X. destruct X as [X|[->|[]]]; eauto. }
      (* steps that do not touch id *)
      assert (Other : In id (rheld s3) -> robjs s3 id = robjs s2 id -> filled id [l] = [] -> delivered id [l] = [] ->
        (forall src bs e, l <> RFill id src bs e) -> (forall e, l <> RErr id e) ->
        In id (rheld s3) /\ rsrc (robjs s3 id) = Some src0 /\
        filled id (tr ++ [l]) = delivered id (tr ++ [l]) ++ rpend (robjs s3 id) /\
        (forall e, rerr (robjs s3 id) = Some e -> exists bs, In (RFill id src0 bs (Some e)) (tr ++ [l])) /\
        (forall src bs e, In (RFill id src bs e) (tr ++ [l]) -> src = src0) /\
        (forall e, In (RErr id e) (tr ++ [l]) -> exists bs, In (RFill id src0 bs (Some e)) (tr ++ [l]))).
      { intros Hh E1 E2 E3 E4 E5. rewrite E1, filled_app, delivered_app, E2, E3, !app_nil_r.
        split; auto. split; auto. split; auto. split; [eauto|]. split.
        - intros src bs e X. apply F' in X. destruct X as [X|X]; auto. now apply E4 in X.
        - intros e X. apply G' in X. destruct X as [X|X]; auto. now apply E5 in X. }
      inversion St; subst; cbn [rheld robjs] in *; unfold set_robj in *.
      + assert (id0 <> id) by (intros ->; eapply (held_not_pool s2); eauto).
        apply Other; cbn; auto; try discriminate. now rewrite upd_other.
      + assert (rnext s2 <> id). { intros E. destruct I2 as [_ LT]. assert (id < rnext s2)%nat by (apply LT, in_or_app; auto). lia. }
        apply Other; cbn; auto; try discriminate. now rewrite upd_other.
      + apply Other; cbn; auto; discriminate.
      + assert (rnext s2 <> id). { intros E. destruct I2 as [_ LT]. assert (id < rnext s2)%nat by (apply LT, in_or_app; auto). lia. }
        apply Other; cbn; auto; try discriminate. now rewrite upd_other.
      + assert (id0 <> id) by congruence. apply Other; cbn; auto; try discriminate.
        * rewrite H in A. apply in_app_or in A. apply in_or_app. destruct A as [A|[A|A]]; auto. contradiction.
        * now rewrite upd_other.
      + destruct (Nat.eq_dec id0 id) as [->|N].
        * rewrite upd_same. cbn [rsrc rpend rerr]. assert (src = src0) by congruence. subst src.
          split; auto. split; auto. rewrite filled_app, delivered_app, C. cbn. rewrite Nat.eqb_refl, !app_nil_r, <- app_assoc.
          split; auto. split; [|split].
          -- intros e0 ->. exists bs. apply in_or_app; cbn; auto.
          -- intros src1 bs0 e0 X. apply F' in X. destruct X as [X|X]; auto. congruence.
          -- intros e0 X. apply G' in X. destruct X as [X|X]; auto. discriminate.
        * apply Other; cbn; auto; try discriminate.
          -- now rewrite upd_other.
          -- destruct (Nat.eqb_spec id0 id); [contradiction|reflexivity].
          -- intros; congruence.
      + destruct (Nat.eq_dec id0 id) as [->|N].
        * rewrite upd_same. cbn [rsrc rpend rerr]. split; auto. split; auto.
          rewrite filled_app, delivered_app, C, H0. cbn. rewrite Nat.eqb_refl, !app_nil_r, <- app_assoc.
          split; auto. split; [eauto|split].
          -- intros src1 bs0 e0 X. apply F' in X. destruct X as [X|X]; auto. congruence.
          -- intros e0 X. apply G' in X. destruct X as [X|X]; auto. discriminate.
        * apply Other; cbn; auto; try discriminate.
          -- now rewrite upd_other.
          -- destruct (Nat.eqb_spec id0 id); [contradiction|reflexivity].
      + destruct (Nat.eq_dec id0 id) as [->|N].
        * rewrite upd_same. cbn [rsrc rpend rerr]. split; auto. split; auto.
          rewrite filled_app, delivered_app, C, H0. cbn. rewrite !app_nil_r.
          split; auto. split; [discriminate|split].
          -- intros src1 bs0 e0 X. apply F' in X. destruct X as [X|X]; auto. congruence.
          -- intros e0 X. apply G' in X. destruct X as [X|X]; auto. inversion X; subst. auto.
        * apply Other; cbn; auto; try discriminate.
          -- now rewrite upd_other.
          -- intros; congruence.
      + apply Other; cbn; auto; discriminate. }
  destruct (G t2 s R2 RO NP) as (_ & _ & _ & C & _ & F & H). split; eauto.
Qed.

(** Buffer sizes: a new reader has at least the requested size (and at least 16) ... *)
Theorem C31_size_new : forall s size n, exists s', rstep s (RGet size (Raw n) (rnext s)) s' /\
  rsize (robjs s' (rnext s)) = Z.max 16 size.
Proof.
  intros. eexists. split; [apply RSGetNew; reflexivity|]. cbn [robjs]. unfold set_robj. rewrite upd_same. cbn [rsize].
  unfold norm_size. destruct (Z.ltb_spec size 16); lia.
Qed.

(** ... but a recycled one keeps its old size, whatever size is asked for. *)
Theorem C31_size_refuted : exists t size n id s, rexec (t ++ [RGet size (Raw n) id]) s /\
  no_alias (t ++ [RGet size (Raw n) id]) /\ rsize (robjs s id) < size.
Proof.
  exists [RGet 16 (Raw 0) 0; RPut 0], 4096, 1%nat, 0%nat. eexists. split; [|split].
  - exists (RS (fun _ => RO 0 None [] None) [] 0 []). split; [repeat split|].
    change ([RGet 16 (Raw 0) 0; RPut 0] ++ [RGet 4096 (Raw 1) 0]) with ((([] ++ [RGet 16 (Raw 0) 0]) ++ [RPut 0]) ++ [RGet 4096 (Raw 1) 0]).
    econstructor; [econstructor; [econstructor; [constructor|apply RSGetNew; reflexivity]|apply (RSPut _ [] 0 []); reflexivity]|].
    apply (RSGetPool _ [] 0 []). reflexivity.
  - intros size i; cbn; intros [X|[X|[X|[]]]]; discriminate.
  - cbn. reflexivity.
Qed.

(** If a bufio.Reader is passed in and the pool is empty, Get returns that very object;
    Put then resets the caller's own reader: its buffered bytes are lost and a later Get
    for another stream hands the same object out again. *)
Theorem C31_alias_refuted : exists t1 t2 s1 s2,
  rexec t1 s1 /\ rpend (robjs s1 0) = [1; 2] /\ rsrc (robjs s1 0) = Some (Raw 0) /\
  steps rstep s1 t2 s2 /\ t2 = [RGet 16 (Obj 0) 0; RPut 0; RGet 16 (Raw 7) 0] /\
  rpend (robjs s2 0) = [] /\ rsrc (robjs s2 0) = Some (Raw 7).
Proof.
  exists [RNew 16 (Raw 0) 0; RFill 0 (Raw 0) [1;2] None], [RGet 16 (Obj 0) 0; RPut 0; RGet 16 (Raw 7) 0].
  eexists _, _. split; [|split; [|split; [|split; [|split; [reflexivity|]]]]].
  - exists (RS (fun _ => RO 0 None [] None) [] 0 []). split; [repeat split|].
    change [RNew 16 (Raw 0) 0; RFill 0 (Raw 0) [1;2] None] with (([] ++ [RNew 16 (Raw 0) 0]) ++ [RFill 0 (Raw 0) [1;2] None]).
    econstructor; [econstructor; [constructor|apply RSNew; reflexivity]|].
    apply RSFill; cbn; auto. vm_compute; discriminate.
  - reflexivity.
  - reflexivity.
  - change [RGet 16 (Obj 0) 0; RPut 0; RGet 16 (Raw 7) 0] with ((([] ++ [RGet 16 (Obj 0) 0]) ++ [RPut 0]) ++ [RGet 16 (Raw 7) 0]).
    econstructor; [econstructor; [econstructor; [constructor|apply RSGetSame; reflexivity]|apply (RSPut _ [] 0 [0%nat]); reflexivity]|].
    apply (RSGetPool _ [] 0 []). reflexivity.
  - split; reflexivity.
Qed.

(** A recycled reader serves its second stream: the hypotheses of C31_isolated are met by
    a run in which bytes of the first stream were left unread. *)
Example C31_ex : exists t1 t2 s, rexec (t1 ++ RGet 16 (Raw 5) 0 :: t2) s /\ no_alias (t1 ++ RGet 16 (Raw 5) 0 :: t2) /\
  ~ In (RPut 0) t2 /\ delivered 0 t2 = [9] /\ filled 0 t1 = [1;2].
Proof.
  exists [RGet 16 (Raw 0) 0; RFill 0 (Raw 0) [1;2] (Some 4); RRead 0 [1]; RPut 0],
    [RFill 0 (Raw 5) [9;8] None; RRead 0 [9]].
  eexists. split; [|split; [|split; [|split; reflexivity]]].
  - exists (RS (fun _ => RO 0 None [] None) [] 0 []). split; [repeat split|]. cbn [app].
    run (apply RSGetNew; reflexivity).
    run (apply RSFill; cbn; auto; vm_compute; discriminate).
    run (apply RSRead with (rest := [2]); cbn; auto).
    run (apply (RSPut _ [] 0 []); reflexivity).
    run (apply (RSGetPool _ [] 0 []); reflexivity).
    run (apply RSFill; cbn; auto; vm_compute; discriminate).
    run (apply RSRead with (rest := [8]); cbn; auto). constructor.
  - intros size i; cbn; intros X; repeat (destruct X as [X|X]; [discriminate|]); destruct X.
  - cbn. intros X. repeat (destruct X as [X|X]; [discriminate|]). destruct X.
Qed.

(** ** Writers *)

Definition winv (s : wstate) : Prop :=
  NoDup (wheld s ++ wpool s) /\ (forall i, In i (wheld s ++ wpool s) -> (i < wnext s)%nat).

Lemma wno_alias_snoc : forall t l, wno_alias (t ++ [l]) -> wno_alias t.
Proof. intros t l H size i X. apply (H size i). apply in_or_app; auto. Qed.
Lemma wno_alias_last : forall t l size i, wno_alias (t ++ [l]) -> l <> WGet size (Obj i) i.
Proof. intros t l size i H ->. apply (H size i). apply in_or_app; cbn; auto. Qed.
Lemma wno_alias_app : forall t u, wno_alias (t ++ u) -> wno_alias t.
Proof. intros t u H size i X. apply (H size i). apply in_or_app; auto. Qed.

Lemma winv_step : forall s l s', winv s -> wstep s l s' ->
  (forall size i, l <> WGet size (Obj i) i) -> winv s'.
Proof.
  intros s l s' [ND LT] St NO. inversion St; subst; unfold winv; cbn [wheld wpool wnext] in *; try (split; assumption).
  - rewrite H in *.
    assert (P : Permutation (wheld s ++ p1 ++ id :: p2) ((id :: wheld s) ++ p1 ++ p2)).
    { cbn. rewrite app_assoc. symmetry. rewrite app_assoc. apply Permutation_middle. }
    split; [eapply nodup_perm; eauto|]. intros i Hi. apply LT. eapply Permutation_in; [symmetry; exact P|exact Hi].
  - split.
    + cbn. constructor; auto. intros X. apply LT in X. lia.
    + intros i [<-|Hi]; [lia|]. apply LT in Hi. lia.
  - unfold wreuses in H. destruct dst as [n|j]; [discriminate|]. destruct (size <=? wsize (wobjs s j)); [|discriminate].
    injection H as ->. exfalso. now apply (NO size i).
  - split.
    + cbn. constructor; auto. intros X. apply LT in X. lia.
    + intros i [<-|Hi]; [lia|]. apply LT in Hi. lia.
  - rewrite H in *.
    assert (P : Permutation ((h1 ++ id :: h2) ++ wpool s) ((h1 ++ h2) ++ id :: wpool s)).
    { rewrite <- !app_assoc. cbn. transitivity (id :: h1 ++ h2 ++ wpool s).
      - symmetry. apply Permutation_middle.
      - rewrite !app_assoc. apply Permutation_middle. }
    split; [eapply nodup_perm; eauto|]. intros i Hi. apply LT. eapply Permutation_in; [symmetry; exact P|exact Hi].
  - rewrite H in *. rewrite app_assoc in *. apply nodup_middle in ND. destruct ND as [ND _]. split; auto.
    intros i Hi. apply LT. apply in_app_or in Hi. apply in_or_app. cbn. tauto.
Qed.

Lemma winv_exec : forall tr s, wexec tr s -> wno_alias tr -> winv s.
Proof.
  apply (exec_ind_inv winit wstep (fun tr s => wno_alias tr -> winv s)).
  - intros s (A & B & C) _. unfold winv. rewrite A, B, C. split; [constructor|]. intros i [].
  - intros tr s l s' _ IH St NA. apply wno_alias_snoc in NA as NA'. eapply winv_step; eauto.
    intros size i. eapply wno_alias_last; eauto.
Qed.

Lemma written_app : forall id a b, written id (a ++ b) = written id a ++ written id b.
Proof. induction a as [|l a IH]; intros b; auto. destruct l; cbn; auto. rewrite IH. now rewrite app_assoc. Qed.
Lemma emitted_app : forall id a b, emitted id (a ++ b) = emitted id a ++ emitted id b.
Proof. induction a as [|l a IH]; intros b; auto. destruct l; cbn; auto. rewrite IH. now rewrite app_assoc. Qed.

Lemma wheld_not_pool : forall s id p1 p2, winv s -> In id (wheld s) -> wpool s = p1 ++ id :: p2 -> False.
Proof.
  intros s id p1 p2 [ND _] H E. rewrite E in ND. rewrite app_assoc in ND. apply nodup_middle in ND. destruct ND as [_ ND].
  apply ND. apply in_or_app. left. apply in_or_app. auto.
Qed.

Lemma writer_main : forall t1 size d id t2 s,
  wexec (t1 ++ WGet size d id :: t2) s -> wno_alias (t1 ++ WGet size d id :: t2) -> ~ In (WPut id) t2 ->
  winv s /\ In id (wheld s) /\ wdst (wobjs s id) = Some d /\
  written id t2 = emitted id t2 ++ wbuf (wobjs s id) /\
  (forall e, werr (wobjs s id) = Some e -> exists bs, In (WEmit id d bs (Some e)) t2) /\
  (forall d' bs e, In (WEmit id d' bs e) t2 -> d' = d) /\
  (forall e, In (WErr id e) t2 -> exists bs, In (WEmit id d bs (Some e)) t2).
Proof.
  intros t1 size d id t2 s (s0 & Hi & R) NA NP.
  change (t1 ++ WGet size d id :: t2) with (t1 ++ [WGet size d id] ++ t2) in *.
  rewrite app_assoc in *. apply steps_app_inv in R. destruct R as (s1 & R1 & R2).
  revert NA NP. induction R2 as [|tr s2 l s3 R IH St]; intros NA NP1.
  - rewrite app_nil_r in NA. assert (I1 : winv s1) by (eapply winv_exec; [exists s0; eauto|auto]).
    split; auto.
    assert (In id (wheld s1) /\ wdst (wobjs s1 id) = Some d /\ wbuf (wobjs s1 id) = [] /\ werr (wobjs s1 id) = None) as (A & B & C & D).
    { apply steps_app_inv in R1. destruct R1 as (s2 & R1 & St). apply steps_cons_inv in St. destruct St as (s3 & St & E).
      apply steps_nil_inv in E. subst s3. inversion St; subst; cbn [wheld wobjs]; unfold set_wobj; rewrite ?upd_same; cbn; auto.
      unfold wreuses in H4. destruct d as [n|j]; [discriminate|]. destruct (size <=? wsize (wobjs s2 j)); [|discriminate].
      injection H4 as ->. exfalso. apply (NA size id). apply in_or_app; cbn; auto. }
    rewrite B, C, D. repeat split; auto; try discriminate; try (intros; contradiction).
  - rewrite app_assoc in NA. apply wno_alias_snoc in NA as NA'.
    destruct IH as (I2 & A & B & C & D & F & G); auto. { intros X. apply NP1. apply in_or_app; auto. }
    assert (I3 : winv s3). { eapply winv_step; eauto. intros sz i. eapply wno_alias_last; eauto. }
    split; auto.
    assert (NPl : l <> WPut id) by (intros ->; apply NP1; apply in_or_app; cbn; auto).
    assert (F' : forall d' bs e, In (WEmit id d' bs e) (tr ++ [l]) -> l = WEmit id d' bs e \/ d' = d).
    { intros d' bs e X. apply in_app_or in X. destruct X as [X|[->|[]]]; eauto. }
    assert (Keep : forall e, (exists bs, In (WEmit id d bs (Some e)) tr) -> exists bs, In (WEmit id d bs (Some e)) (tr ++ [l])).
    { intros e (bs & X). exists bs. apply in_or_app; auto. }
    assert (G' : forall e, In (WErr id e) (tr ++ [l]) -> l = WErr id e \/ exists bs, In (WEmit id d bs (Some e)) (tr ++ [l])).
    { intros e X. apply in_app_or in X. destruct X as [X|[->|[]]]; eauto. }
    assert (Other : In id (wheld s3) -> wobjs s3 id = wobjs s2 id -> written id [l] = [] -> emitted id [l] = [] ->
      (forall d' bs e, l <> WEmit id d' bs e) -> (forall e, l <> WErr id e) ->
      In id (wheld s3) /\ wdst (wobjs s3 id) = Some d /\
      written id (tr ++ [l]) = emitted id (tr ++ [l]) ++ wbuf (wobjs s3 id) /\
      (forall e, werr (wobjs s3 id) = Some e -> exists bs, In (WEmit id d bs (Some e)) (tr ++ [l])) /\
      (forall d' bs e, In (WEmit id d' bs e) (tr ++ [l]) -> d' = d) /\
      (forall e, In (WErr id e) (tr ++ [l]) -> exists bs, In (WEmit id d bs (Some e)) (tr ++ [l]))).
    { intros Hh E1 E2 E3 E4 E5. rewrite E1, written_app, emitted_app, E2, E3, !app_nil_r.
      split; auto. split; auto. split; auto. split; [eauto|]. split.
      - intros d' bs e X. apply F' in X. destruct X as [X|X]; auto. now apply E4 in X.
      - intros e X. apply G' in X. destruct X as [X|X]; auto. now apply E5 in X. }
    inversion St; subst; cbn [wheld wobjs] in *; unfold set_wobj in *.
    + assert (id0 <> id) by (intros ->; eapply (wheld_not_pool s2); eauto).
      apply Other; cbn; auto; try discriminate. now rewrite upd_other.
    + assert (wnext s2 <> id). { intros E. destruct I2 as [_ LT]. assert (id < wnext s2)%nat by (apply LT, in_or_app; auto). lia. }
      apply Other; cbn; auto; try discriminate. now rewrite upd_other.
    + apply Other; cbn; auto; discriminate.
    + assert (wnext s2 <> id). { intros E. destruct I2 as [_ LT]. assert (id < wnext s2)%nat by (apply LT, in_or_app; auto). lia. }
      apply Other; cbn; auto; try discriminate. now rewrite upd_other.
    + assert (id0 <> id) by congruence. apply Other; cbn; auto; try discriminate.
      * rewrite H in A. apply in_app_or in A. apply in_or_app. destruct A as [A|[A|A]]; auto. contradiction.
      * now rewrite upd_other.
    + destruct (Nat.eq_dec id0 id) as [->|N].
      * rewrite upd_same. cbn [wdst wbuf werr]. split; auto. split; auto.
        rewrite written_app, emitted_app, C. cbn. rewrite Nat.eqb_refl, !app_nil_r, <- app_assoc.
        split; auto. split; [discriminate|split].
        -- intros src0 bs0 e0 X. apply F' in X. destruct X as [X|X]; auto. congruence.
        -- intros e0 X. apply G' in X. destruct X as [X|X]; auto. discriminate.
      * apply Other; cbn; auto; try discriminate.
        -- now rewrite upd_other.
        -- destruct (Nat.eqb_spec id0 id); [contradiction|reflexivity].
    + destruct (Nat.eq_dec id0 id) as [->|N].
      * rewrite upd_same. cbn [wdst wbuf werr]. assert (dst = d) by congruence. subst dst.
        split; auto. split; auto. rewrite written_app, emitted_app, C, H2. cbn. rewrite Nat.eqb_refl, !app_nil_r, <- app_assoc.
        split; auto. split; [|split].
        -- intros e0 ->. exists bs. apply in_or_app; cbn; auto.
        -- intros src0 bs0 e0 X. apply F' in X. destruct X as [X|X]; auto. congruence.
        -- intros e0 X. apply G' in X. destruct X as [X|X]; auto. discriminate.
      * apply Other; cbn; auto; try discriminate.
        -- now rewrite upd_other.
        -- destruct (Nat.eqb_spec id0 id); [contradiction|reflexivity].
        -- intros; congruence.
    + apply Other; cbn; auto; try discriminate.
    + destruct (Nat.eq_dec id0 id) as [->|N].
      * split; auto. split; auto. rewrite written_app, emitted_app, C. cbn. rewrite !app_nil_r. split; auto. split; [eauto|split].
        -- intros src0 bs0 e0 X. apply F' in X. destruct X as [X|X]; auto. congruence.
        -- intros e0 X. apply G' in X. destruct X as [X|X]; auto. inversion X; subst. auto.
      * apply Other; cbn; auto; try discriminate. intros; congruence.
    + apply Other; cbn; auto; discriminate.
Qed.

(** Between its Get and its Put a handle sends to the writer of that Get exactly a prefix
    of what was written through it, in order; errors reported are that writer's. *)
Theorem C32_isolated : forall t1 size d id t2 s,
  wexec (t1 ++ WGet size d id :: t2) s -> wno_alias (t1 ++ WGet size d id :: t2) -> ~ In (WPut id) t2 ->
  (exists unflushed, written id t2 = emitted id t2 ++ unflushed) /\
  (forall d' bs e, In (WEmit id d' bs e) t2 -> d' = d) /\
  (forall e, In (WErr id e) t2 -> exists bs, In (WEmit id d bs (Some e)) t2).
Proof.
  intros t1 size d id t2 s H NA N. destruct (writer_main _ _ _ _ _ _ H NA N) as (_ & _ & _ & A & _ & B & C). split; eauto.
Qed.

(** A Flush that returns nil has emitted everything written so far. *)
Theorem C32_flush : forall t1 size d id t2 s,
  wexec (t1 ++ WGet size d id :: t2 ++ [WFlushed id]) s -> wno_alias (t1 ++ WGet size d id :: t2) -> ~ In (WPut id) t2 -> emitted id t2 = written id t2.
Proof.
  intros t1 size d id t2 s H NA N.
  change (t1 ++ WGet size d id :: t2 ++ [WFlushed id]) with (t1 ++ (WGet size d id :: t2) ++ [WFlushed id]) in H.
  rewrite app_assoc in H. apply exec_app_inv in H. destruct H as (s1 & H & St).
  apply steps_cons_inv in St. destruct St as (s2 & St & _).
  destruct (writer_main _ _ _ _ _ _ H NA N) as (_ & _ & _ & A & _). inversion St; subst.
  rewrite A, H4, app_nil_r. reflexivity.
Qed.

(** After Put nothing is emitted through the handle until it is handed out again: bytes
    not flushed before PutBufferWriter are lost. *)
Theorem C32_dropped : forall t1 id t2 s,
  wexec (t1 ++ WPut id :: t2) s -> wno_alias (t1 ++ WPut id :: t2) -> (forall size d, ~ In (WGet size d id) t2) -> emitted id t2 = [] /\ written id t2 = [].
Proof.
  intros t1 id t2 s (s0 & Hi & R) NA NG.
  change (t1 ++ WPut id :: t2) with (t1 ++ [WPut id] ++ t2) in *.
  rewrite app_assoc in *. apply steps_app_inv in R. destruct R as (s1 & R1 & R2).
  assert (G : winv s /\ ~ In id (wheld s) /\ (id < wnext s)%nat /\ emitted id t2 = [] /\ written id t2 = []); [|tauto].
  revert NA NG. induction R2 as [|tr s2 l s3 R IH St]; intros NA NG.
  - rewrite app_nil_r in NA. assert (I1 : winv s1) by (eapply winv_exec; [exists s0; eauto|auto]). split; auto.
    apply steps_app_inv in R1. destruct R1 as (s2 & R1 & St). apply steps_cons_inv in St. destruct St as (s3 & St & E).
    apply steps_nil_inv in E. subst s3. inversion St; subst. cbn [wheld wnext] in *. destruct I1 as [ND LT]. cbn [wheld wpool wnext] in *.
    apply nodup_middle in ND. destruct ND as [_ ND]. split; [intros X; apply ND; apply in_or_app; auto|].
    split; auto. apply LT. apply in_or_app; cbn; auto.
  - rewrite app_assoc in NA. apply wno_alias_snoc in NA as NA'.
    destruct IH as (I2 & A & L & B & C); auto. { intros size d X. apply (NG size d). apply in_or_app; auto. }
    assert (I3 : winv s3). { eapply winv_step; eauto. intros sz i. eapply wno_alias_last; eauto. }
    split; auto.
    assert (NGl : forall size d, l <> WGet size d id) by (intros size d ->; apply (NG size d); apply in_or_app; cbn; auto).
    rewrite emitted_app, written_app, B, C.
    inversion St; subst; cbn [wheld wnext] in *; try (split; [assumption|split; auto]; fail);
      try (destruct (Nat.eq_dec id0 id) as [->|N]; [contradiction|]; cbn; destruct (Nat.eqb_spec id0 id); [contradiction|]; auto; fail).
    + split; [|cbn; auto]. intros [X|X]; auto. subst. now apply (NGl size dst).
    + split; [|cbn; auto]. intros [X|X]; auto. subst. now apply (NGl size dst).
    + split; [|cbn; auto]. intros [X|X]; auto. subst. now apply (NGl size dst).
    + split; [|cbn; auto]. intros [X|X]; auto. lia.
    + split; [|cbn; auto]. intros X. apply A. rewrite H. apply in_app_or in X. apply in_or_app. cbn. tauto.
Qed.

(** Buffer sizes: a new writer has the requested size, or 4096 if that is not positive ... *)
Theorem C32_size_new : forall s size n, exists s', wstep s (WGet size (Raw n) (wnext s)) s' /\
  wsize (wobjs s' (wnext s)) = if Z_lt_le_dec 0 size then size else 4096.
Proof.
  intros. eexists. split; [apply WSGetNew; reflexivity|]. cbn [wobjs]. unfold set_wobj. rewrite upd_same. cbn [wsize].
  unfold norm_wsize. destruct (Z.leb_spec size 0), (Z_lt_le_dec 0 size); lia.
Qed.
(** ... but a recycled one keeps its old size, whatever size is asked for. *)
Theorem C32_size_refuted : exists t size n id s, wexec (t ++ [WGet size (Raw n) id]) s /\ wsize (wobjs s id) < size.
Proof.
  exists [WGet 1 (Raw 0) 0; WPut 0], 4096, 1%nat, 0%nat. eexists. split.
  - exists (WS (fun _ => WO 0 None [] None) [] 0 []). split; [repeat split|]. cbn [app].
    run (apply WSGetNew; reflexivity). run (apply (WSPut _ [] 0 []); reflexivity). run (apply (WSGetPool _ [] 0 []); reflexivity). constructor.
  - vm_compute. reflexivity.
Qed.

(** A writer that is held and has no error can be flushed: if the destination takes the
    buffered bytes, Flush returns nil and nothing is left. *)
Theorem C32_can_flush : forall s id d, In id (wheld s) -> werr (wobjs s id) = None -> wdst (wobjs s id) = Some d ->
  exists s', steps wstep s [WEmit id d (wbuf (wobjs s id)) None; WFlushed id] s' /\ wbuf (wobjs s' id) = [].
Proof.
  intros s id d Hh He Hd. eexists. split.
  - eapply steps_cons. { eapply WSEmit with (rest := []); eauto. now rewrite app_nil_r. }
    eapply steps_cons; [|constructor]. apply WSFlushed; cbn; auto; unfold set_wobj; rewrite upd_same; reflexivity.
  - cbn. unfold set_wobj. now rewrite upd_same.
Qed.
(** A reader that is held hands out everything it has buffered. *)
Theorem C31_can_read : forall s id, In id (rheld s) ->
  exists s', rstep s (RRead id (rpend (robjs s id))) s' /\ rpend (robjs s' id) = [].
Proof.
  intros s id Hh. eexists. split; [eapply RSRead with (rest := []); auto; now rewrite app_nil_r|].
  cbn. unfold set_robj. now rewrite upd_same.
Qed.

(** Unflushed bytes really are lost, and the next holder does not see them. *)
Example C32_ex : exists t s, wexec t s /\ wno_alias t /\
  t = [WGet 16 (Raw 0) 0; WWrite 0 [1;2]; WPut 0; WGet 16 (Raw 5) 0; WWrite 0 [9]; WEmit 0 (Raw 5) [9] None; WFlushed 0].
Proof.
  eexists _, _. split; [|split; [|reflexivity]];
    [|intros size i; cbn; intros X; repeat (destruct X as [X|X]; [discriminate|]); destruct X].
  exists (WS (fun _ => WO 0 None [] None) [] 0 []). split; [repeat split|].
  run (apply WSGetNew; reflexivity).
  run (apply WSWrite; cbn; auto).
  run (apply (WSPut _ [] 0 []); reflexivity).
  run (apply (WSGetPool _ [] 0 []); reflexivity).
  run (apply WSWrite; cbn; auto).
  run (apply WSEmit with (rest := []); cbn; auto).
  run (apply WSFlushed; cbn; auto).
  constructor.
Qed.

(** When that happens: with nothing in the pool, a Get given a bufio.Reader (bufio.Writer)
    that somebody holds returns that very object exactly if its buffer is at least as
    large as the size asked for. *)
Theorem C31_same : forall t s size i id s', rexec t s -> no_alias t -> rpool s = [] -> In i (rheld s) ->
  rstep s (RGet size (Obj i) id) s' -> (id = i <-> size <= rsize (robjs s i)).
Proof.
  intros t s size i id s' E NA P Hi St. destruct (rinv_exec _ _ E NA) as [_ LT].
  inversion St; subst.
  - rewrite P in H4. destruct p1; discriminate.
  - cbn in H4. destruct (Z.leb_spec size (rsize (robjs s i))); [discriminate|].
    assert (i < rnext s)%nat by (apply LT, in_or_app; auto). lia.
  - cbn in H4. destruct (Z.leb_spec size (rsize (robjs s i))); [|discriminate]. injection H4 as ->. tauto.
Qed.
Theorem C32_same : forall t s size i id s', wexec t s -> wno_alias t -> wpool s = [] -> In i (wheld s) ->
  wstep s (WGet size (Obj i) id) s' -> (id = i <-> size <= wsize (wobjs s i)).
Proof.
  intros t s size i id s' E NA P Hi St. destruct (winv_exec _ _ E NA) as [_ LT].
  inversion St; subst.
  - rewrite P in H4. destruct p1; discriminate.
  - cbn in H4. destruct (Z.leb_spec size (wsize (wobjs s i))); [discriminate|].
    assert (i < wnext s)%nat by (apply LT, in_or_app; auto). lia.
  - cbn in H4. destruct (Z.leb_spec size (wsize (wobjs s i))); [|discriminate]. injection H4 as ->. tauto.
Qed.

(** For writers: the caller's own bufio.Writer comes back from Get; Put drops the bytes the
    caller had written to it, and what the caller writes to it later goes to the
    destination of whoever got it from the pool since. *)
Theorem C32_alias_refuted : exists s,
  wexec [WNew 16 (Raw 0) 0; WWrite 0 [1;2]; WGet 16 (Obj 0) 0; WPut 0; WGet 16 (Raw 7) 0;
         WWrite 0 [3]; WEmit 0 (Raw 7) [3] None; WFlushed 0] s /\
  emitted 0 [WNew 16 (Raw 0) 0; WWrite 0 [1;2]; WGet 16 (Obj 0) 0; WPut 0; WGet 16 (Raw 7) 0;
         WWrite 0 [3]; WEmit 0 (Raw 7) [3] None; WFlushed 0] = [3].
Proof.
  eexists. split; [|reflexivity].
  exists (WS (fun _ => WO 0 None [] None) [] 0 []). split; [repeat split|].
  run (apply WSNew; reflexivity).
  run (apply WSWrite; cbn; auto).
  run (apply WSGetSame; reflexivity).
  run (apply (WSPut _ [] 0 [0%nat]); reflexivity).
  run (apply (WSGetPool _ [] 0 []); reflexivity).
  run (apply WSWrite; cbn; auto).
  run (apply WSEmit with (rest := []); cbn; auto).
  run (apply WSFlushed; cbn; auto).
  constructor.
Qed.

(** A bufio.Reader (bufio.Writer) too small for the size asked for is wrapped: the
    hypotheses of C31_isolated and C32_isolated are met with such a source. *)
Example C31_wrap_ex : exists s, rexec [RNew 16 (Raw 0) 0; RGet 64 (Obj 0) 1; RFill 1 (Obj 0) [4;5] None; RRead 1 [4]] s /\
  no_alias [RNew 16 (Raw 0) 0; RGet 64 (Obj 0) 1; RFill 1 (Obj 0) [4;5] None; RRead 1 [4]].
Proof.
  eexists. split; [|intros size i; cbn; intros X; repeat (destruct X as [X|X]; [congruence|]); destruct X].
  exists (RS (fun _ => RO 0 None [] None) [] 0 []). split; [repeat split|].
  run (apply RSNew; reflexivity).
  run (apply RSGetNew; reflexivity).
  run (apply RSFill; cbn; auto; vm_compute; discriminate).
  run (apply RSRead with (rest := [5]); cbn; auto).
  constructor.
Qed.
Example C32_wrap_ex : exists s, wexec [WNew 16 (Raw 0) 0; WGet 64 (Obj 0) 1; WWrite 1 [4;5]; WEmit 1 (Obj 0) [4] None] s /\
  wno_alias [WNew 16 (Raw 0) 0; WGet 64 (Obj 0) 1; WWrite 1 [4;5]; WEmit 1 (Obj 0) [4] None].
Proof.
  eexists. split; [|intros size i; cbn; intros X; repeat (destruct X as [X|X]; [congruence|]); destruct X].
  exists (WS (fun _ => WO 0 None [] None) [] 0 []). split; [repeat split|].
  run (apply WSNew; reflexivity).
  run (apply WSGetNew; reflexivity).
  run (apply WSWrite; cbn; auto).
  run (apply WSEmit with (rest := [5]); cbn; auto).
  constructor.
Qed.

Print Assumptions C31_isolated. Print Assumptions C31_alias_refuted.
Print Assumptions C32_isolated. Print Assumptions C32_flush. Print Assumptions C32_dropped.
Print Assumptions C32_size_new. Print Assumptions C32_size_refuted. Print Assumptions C32_can_flush. Print Assumptions C31_can_read.
Print Assumptions C31_same. Print Assumptions C32_same. Print Assumptions C32_alias_refuted.
