(** * Proofs for the sequential Map *)
From Coq Require Import List Bool Lia.
From stdpp Require Import gmap.
From Verif Require Import MapSeqModel MapSeqSpec.

Section Map.
Context {K : Type} `{Countable K} {V : Type}.
Implicit Types (m : mp K V) (k : K) (v : V) (e : entry K).

(** ** Running operations *)
Definition step_op (m : mp K V) (o : mop K V) : option (mp K V * (option V * bool)) :=
  match o with
  | MLoad k => Some (load m k)
  | MStore k v => m' ← store m k v; Some (m', unit_res)
  | MLoadOrStore k v => loadOrStore m k v
  | MComputeIfAbsent k f => computeIfAbsent m k f
  | MComputeIfPresent k g => computeIfPresent m k g
  | MLoadAndDelete k => Some (loadAndDelete m k)
  | MDelete k => Some (fst (loadAndDelete m k), unit_res)
  | MClear => Some (clear m, unit_res)
  | MRange => Some (range_read m, unit_res)
  end.
Fixpoint run_ops (m : mp K V) (l : list (mop K V)) : option (mp K V * list (option V * bool)) :=
  match l with
  | [] => Some (m, [])
  | o :: l' => '(m', r) ← step_op m o; '(m'', rs) ← run_ops m' l'; Some (m'', r :: rs)
  end.

(** ** Contents *)
Definition val (x : eptr V) : option V := match x with EVal v => Some v | _ => None end.
Definition abs (m : mp K V) : gmap K V := omap (fun e => val (hp m e)) (rm m ∪ default ∅ (dm m)).
Definition find (m : mp K V) (k : K) : option (entry K) := match rm m !! k with Some e => Some e | None => dget m k end.

Arguments abs _ : simpl never.
Arguments missLocked _ _ _ _ _ : simpl never.

Lemma abs_lookup : forall m k, abs m !! k = find m k ≫= (fun e => val (hp m e)).
Proof.
  intros m k. unfold abs, find, dget. rewrite lookup_omap.
  destruct (rm m !! k) as [e|] eqn:E.
  - rewrite (lookup_union_Some_l _ _ _ _ E). reflexivity.
  - rewrite lookup_union_r by exact E. destruct (dm m); cbn; [reflexivity|]. now rewrite lookup_empty.
Qed.

Record Inv (m : mp K V) : Prop := {
  i_rm : forall k e, rm m !! k = Some e -> e.1 = k /\ e.2 < nid m;
  i_dm : forall d k e, dm m = Some d -> d !! k = Some e ->
    e.1 = k /\ e.2 < nid m /\ (rm m !! k = Some e \/ rm m !! k = None /\ exists v, hp m e = EVal v);
  i_none : dm m = None -> am m = false /\ forall k e, rm m !! k = Some e -> hp m e <> EExp;
  i_some : forall d, dm m = Some d -> am m = true /\
    forall k e, rm m !! k = Some e -> (hp m e = EExp /\ d !! k = None) \/ (hp m e <> EExp /\ d !! k = Some e)
}.

Lemma hset_same : forall (h : heap K V) e x, hset h e x e = x.
Proof. intros. unfold hset. now rewrite decide_True. Qed.
Lemma hset_other : forall (h : heap K V) e e' x, e' <> e -> hset h e x e' = h e'.
Proof. intros. unfold hset. now rewrite decide_False. Qed.

Lemma inv_empty : Inv empty_map.
Proof. split; cbn; try discriminate; intros; rewrite ?lookup_empty in *; try discriminate. split; [auto|]. intros. rewrite lookup_empty in *. discriminate. Qed.

Lemma dget_none : forall m k, Inv m -> am m = false -> dget m k = None.
Proof. intros m k I A. unfold dget. destruct (dm m) eqn:E; auto. destruct (i_some _ I _ E). congruence. Qed.
Lemma find_key : forall m k e, Inv m -> find m k = Some e -> e.1 = k /\ e.2 < nid m.
Proof.
  intros m k e I F. unfold find, dget in F. destruct (rm m !! k) eqn:E.
  - injection F as ->. now apply (i_rm _ I).
  - destruct (dm m) eqn:D; [|discriminate]. cbn in F. destruct (i_dm _ I _ _ _ D F) as (X & Y & _). auto.
Qed.

(** Writing a value, or nil to an entry of read, to an entry in use that is not expunged. *)
Lemma find_write : forall m e x k, find (write m e x) k = find m k.
Proof. reflexivity. Qed.

Lemma inv_write : forall m e x, Inv m -> find m e.1 = Some e -> hp m e <> EExp -> x <> EExp ->
  (rm m !! e.1 = None -> exists v, x = EVal v) -> Inv (write m e x).
Proof.
  intros m e x I F N X V0. split; cbn.
  - apply (i_rm _ I).
  - intros d k e' D L. destruct (i_dm _ I _ _ _ D L) as (A & B & C). split; auto. split; auto.
    destruct C as [C|(C & v & C2)]; auto. right. split; auto.
    destruct (decide (e' = e)) as [->|E]; [rewrite hset_same|rewrite hset_other; eauto]. apply V0. now rewrite A.
  - intros D. destruct (i_none _ I D) as (A & B). split; auto. intros k e' L.
    destruct (decide (e' = e)) as [->|E]; [rewrite hset_same|rewrite hset_other; eauto]; auto.
  - intros d D. destruct (i_some _ I _ D) as (A & B). split; auto. intros k e' L.
    destruct (decide (e' = e)) as [->|E]; [rewrite hset_same|rewrite hset_other; eauto].
    destruct (B _ _ L) as [(C & _)|(C & C2)]; [congruence|]. right. auto.
Qed.

Lemma abs_write : forall m e x, Inv m -> find m e.1 = Some e ->
  abs (write m e x) = match val x with Some v => <[e.1 := v]> (abs m) | None => delete e.1 (abs m) end.
Proof.
  intros m e x I F. apply map_eq. intros k. rewrite abs_lookup, find_write. cbn.
  destruct (decide (k = e.1)) as [->|N].
  - rewrite F. cbn. rewrite hset_same. destruct (val x); [now rewrite lookup_insert|now rewrite lookup_delete].
  - assert (E : (find m k ≫= (fun e0 => val (hset (hp m) e x e0))) = abs m !! k).
    { rewrite abs_lookup. destruct (find m k) as [e'|] eqn:G; auto. cbn. rewrite hset_other; auto.
      intros ->. destruct (find_key _ _ _ I G). congruence. }
    rewrite E. destruct (val x); [rewrite lookup_insert_ne by auto|rewrite lookup_delete_ne by auto]; reflexivity.
Qed.

(** missLocked *)
Lemma inv_promote : forall m, Inv m -> am m = true ->
  let m' := Mp (hp m) (nid m) (default ∅ (dm m)) false None 0 in Inv m' /\ abs m' = abs m.
Proof.
  intros m I A. destruct (dm m) as [d|] eqn:D; [|destruct (i_none _ I D); congruence]. cbv zeta.
  destruct (i_some _ I _ D) as (_ & C). split.
  - split; cbn; try discriminate.
    + intros k e L. destruct (i_dm _ I _ _ _ D L) as (X & Y & _). auto.
    + intros _. split; auto. intros k e L E. destruct (i_dm _ I _ _ _ D L) as (X & Y & [Z|(_ & v & Z)]); [|congruence].
      destruct (C _ _ Z) as [(_ & Q)|(Q & _)]; congruence.
  - apply map_eq. intros k. rewrite !abs_lookup. unfold find, dget. cbn. rewrite D. cbn.
    destruct (d !! k) as [e|] eqn:L.
    + destruct (i_dm _ I _ _ _ D L) as (_ & _ & [Z|(Z & _)]); rewrite Z; reflexivity.
    + destruct (rm m !! k) as [e|] eqn:R; auto. destruct (C _ _ R) as [(Q & _)|(_ & Q)]; [cbn; now rewrite Q|congruence].
Qed.

Lemma miss_ok : forall m, Inv m -> am m = true -> Inv (missLocked m) /\ abs (missLocked m) = abs m.
Proof.
  intros m I A. unfold missLocked. destruct (S (ms m) <? size (default ∅ (dm m))).
  - split; [|reflexivity]. destruct I as [a b c d]. split; auto.
  - now apply inv_promote.
Qed.
Lemma miss_hp : forall m, hp (missLocked m) = hp m.
Proof. intros. unfold missLocked. destruct (_ <? _); reflexivity. Qed.

(** dirtyLocked *)
Lemma copy_live_spec : forall l (h : heap K V) d h' d', copy_live l h d = (h', d') ->
  NoDup l.*1 -> (forall k e, (k, e) ∈ l -> e.1 = k) -> (forall k e, (k, e) ∈ l -> d !! k = None /\ h e <> EExp) ->
  (forall e, h' e = if decide ((e.1, e) ∈ l) then match h e with ENil => EExp | x => x end else h e) /\
  (forall k, k ∉ l.*1 -> d' !! k = d !! k) /\
  (forall k e, (k, e) ∈ l -> d' !! k = match h e with EVal _ => Some e | _ => None end).
Proof.
  induction l as [|[k e] l IH]; intros h d h' d' E ND KK HD.
  - cbn in E. injection E as <- <-. split; [|split]; auto.
    intros k e X. exfalso. revert X. apply not_elem_of_nil.
  - cbn [fmap list_fmap] in ND. apply NoDup_cons in ND. destruct ND as (NI & ND). 
    assert (KE : e.1 = k) by (apply KK; apply elem_of_list_here).
    destruct (HD k e) as (Dk & He); [apply elem_of_list_here|].
    assert (KK' : forall k e, (k, e) ∈ l -> e.1 = k) by (intros; apply KK; now apply elem_of_list_further).
    assert (NE : forall k' e', (k', e') ∈ l -> k' <> k).
    { intros k' e' X ->. apply NI. apply elem_of_list_fmap. exists (k, e'). auto. }
    assert (NE' : forall k' e', (k', e') ∈ l -> e' <> e).
    { intros k' e' X ->. apply (NE _ _ X). rewrite <- KE. symmetry. now apply KK'. }
    assert (SPL : forall e', (e'.1, e') ∈ (k, e) :: l <-> e' = e \/ (e'.1, e') ∈ l).
    { intros e'. rewrite elem_of_cons. split; intros [X|X]; auto. injection X; auto. subst e'. left. now rewrite KE. }
    cbn in E. destruct (h e) eqn:Hx; [| congruence |].
    + destruct (IH (hset h e EExp) d h' d' E ND KK') as (A & B & C).
      { intros k' e' X. destruct (HD k' e'); [now apply elem_of_list_further|]. rewrite hset_other by eauto. auto. }
      split; [|split].
      * intros e'. rewrite A. destruct (decide (e' = e)) as [->|N].
        -- rewrite decide_False by (intros X; now apply (NE' _ _ X)). rewrite hset_same.
           rewrite decide_True by (apply SPL; auto). now rewrite Hx.
        -- rewrite hset_other by auto. destruct (decide ((e'.1, e') ∈ l)).
           ++ rewrite decide_True by (apply SPL; auto). reflexivity.
           ++ rewrite decide_False; auto. rewrite SPL. tauto.
      * intros k' X. apply B. intros Y. apply X. cbn. apply elem_of_cons. auto.
      * intros k' e' X. apply elem_of_cons in X. destruct X as [X|X].
        -- injection X as -> ->. rewrite Hx, B by auto. exact Dk.
        -- rewrite (C _ _ X), hset_other by eauto. reflexivity.
    + destruct (IH h (<[k := e]> d) h' d' E ND KK') as (A & B & C).
      { intros k' e' X. destruct (HD k' e'); [now apply elem_of_list_further|]. rewrite lookup_insert_ne by (intros ->; eapply NE; eauto). auto. }
      split; [|split].
      * intros e'. rewrite A. destruct (decide (e' = e)) as [->|N].
        -- rewrite decide_False by (intros X; now apply (NE' _ _ X)).
           rewrite decide_True by (apply SPL; auto). now rewrite Hx.
        -- destruct (decide ((e'.1, e') ∈ l)).
           ++ rewrite decide_True by (apply SPL; auto). reflexivity.
           ++ rewrite decide_False; auto. rewrite SPL. tauto.
      * intros k' X. cbn in X. rewrite not_elem_of_cons in X. destruct X as (X1 & X2). rewrite B by auto. rewrite lookup_insert_ne by auto. reflexivity.
      * intros k' e' X. apply elem_of_cons in X. destruct X as [X|X].
        -- injection X as -> ->. rewrite Hx, B by auto. apply lookup_insert.
        -- rewrite (C _ _ X). reflexivity.
Qed.

Lemma dirty_ok : forall m, Inv m -> am m = false ->
  exists h d, dirtyLocked m = Mp h (nid m) (rm m) (am m) (Some d) (ms m) /\
    let m1 := Mp h (nid m) (rm m) true (Some d) (ms m) in Inv m1 /\ abs m1 = abs m.
Proof.
  intros m I A. unfold dirtyLocked. destruct (dm m) as [d0|] eqn:D; [destruct (i_some _ I _ D); congruence|].
  destruct (copy_live (map_to_list (rm m)) (hp m) ∅) as [h d] eqn:E. exists h, d. split; auto.
  destruct (i_none _ I D) as (_ & NX).
  destruct (copy_live_spec _ _ _ _ _ E) as (P & Q & R).
  { apply NoDup_fst_map_to_list. }
  { intros k e X. apply elem_of_map_to_list in X. now apply (i_rm _ I). }
  { intros k e X. apply elem_of_map_to_list in X. split; [apply lookup_empty|]. eauto. }
  assert (RL : forall k e, rm m !! k = Some e -> (k, e) ∈ map_to_list (rm m)) by (intros; now apply elem_of_map_to_list).
  assert (P' : forall k e, rm m !! k = Some e -> h e = match hp m e with ENil => EExp | x => x end).
  { intros k e L. rewrite P. destruct (i_rm _ I _ _ L) as (<- & _). rewrite decide_True; auto. }
  assert (Q' : forall k, rm m !! k = None -> d !! k = None).
  { intros k L. rewrite Q; [apply lookup_empty|]. intros X. apply elem_of_list_fmap in X. destruct X as ([k' e] & -> & X).
    apply elem_of_map_to_list in X. cbn in L. congruence. }
  cbv zeta. split.
  - split; cbn; try discriminate.
    + apply (i_rm _ I).
    + intros d1 k e Ed L. injection Ed as <-. destruct (rm m !! k) as [e1|] eqn:F; [|rewrite Q' in L by auto; discriminate].
      pose proof (R _ _ (RL _ _ F)) as R1. rewrite L in R1. destruct (hp m e1); try discriminate. injection R1 as ->.
      destruct (i_rm _ I _ _ F). auto.
    + intros d1 Ed. injection Ed as <-. split; auto. intros k e L. rewrite (P' _ _ L), (R _ _ (RL _ _ L)).
      destruct (hp m e) eqn:X; [left; auto| |right; split; auto; discriminate]. exfalso. eapply NX; eauto.
  - apply map_eq. intros k. rewrite !abs_lookup. unfold find, dget. cbn. rewrite D. cbn.
    destruct (rm m !! k) as [e|] eqn:L.
    + cbn. rewrite (P' _ _ L). now destruct (hp m e).
    + now rewrite Q'.
Qed.

Lemma dirty_set_ok : forall m k v, Inv m -> find m k = None -> am m = true ->
  exists m', dirty_set (Mp (hset (hp m) (k, nid m) (EVal v)) (S (nid m)) (rm m) (am m) (dm m) (ms m)) k (k, nid m) = Some m' /\
    Inv m' /\ abs m' = <[k := v]> (abs m).
Proof.
  intros m k v I F A. unfold dirty_set. cbn. destruct (dm m) as [d|] eqn:D; [|destruct (i_none _ I D); congruence].
  eexists. split; [reflexivity|]. destruct (i_some _ I _ D) as (_ & C).
  unfold find, dget in F. destruct (rm m !! k) eqn:R; [discriminate|]. rewrite D in F. cbn in F.
  assert (NE : forall e, e.2 < nid m -> e <> (k, nid m)) by (intros e X ->; cbn in X; lia).
  split.
  - split; cbn; try discriminate.
    + intros k' e L. destruct (i_rm _ I _ _ L). split; auto.
    + intros d1 k' e Ed L. injection Ed as <-. destruct (decide (k' = k)) as [->|N].
      * rewrite lookup_insert in L. injection L as <-. cbn. repeat split; auto. right. split; auto. exists v. apply hset_same.
      * rewrite lookup_insert_ne in L by auto. destruct (i_dm _ I _ _ _ D L) as (X & Y & Z). split; auto. split; auto.
        destruct Z as [Z|(Z & w & W)]; auto. right. split; auto. exists w. rewrite hset_other; auto.
    + intros d1 Ed. injection Ed as <-. split; auto. intros k' e L. destruct (i_rm _ I _ _ L) as (X & Y).
      rewrite hset_other by auto. assert (k' <> k) by congruence. rewrite lookup_insert_ne by auto. eauto.
  - apply map_eq. intros k'. rewrite abs_lookup. unfold find, dget. cbn. destruct (decide (k' = k)) as [->|N].
    + rewrite R, !lookup_insert. cbn. now rewrite hset_same.
    + rewrite !lookup_insert_ne by auto. rewrite abs_lookup. unfold find, dget. rewrite D. cbn.
      destruct (rm m !! k') as [e|] eqn:L.
      * cbn. rewrite hset_other; auto. apply NE. now apply (i_rm _ I _ _ L).
      * destruct (d !! k') as [e|] eqn:L2; auto. cbn. rewrite hset_other; auto. apply NE. now apply (i_dm _ I _ _ _ D L2).
Qed.

Lemma insert_ok : forall m k v, Inv m -> find m k = None -> exists m', insert_new m k v = Some m' /\ Inv m' /\ abs m' = <[k := v]> (abs m).
Proof.
  intros m k v I F. unfold insert_new. destruct (am m) eqn:A.
  - destruct (dirty_set_ok m k v I F A) as (m' & E & X). rewrite A in E. exists m'. cbv zeta. rewrite A. auto.
  - destruct (dirty_ok m I A) as (h & d & E & I1 & A1). rewrite E. cbn [hp nid rm am dm ms].
    set (m1 := Mp h (nid m) (rm m) true (Some d) (ms m)) in *.
    assert (F1 : find m1 k = None).
    { unfold find, dget in *. cbn. destruct (rm m !! k) eqn:R; [discriminate|].
      destruct (d !! k) as [e|] eqn:L; auto. exfalso. destruct (i_dm _ I1 d k e eq_refl L) as (_ & _ & [Z|(Z & w & W)]); cbn in Z; [congruence|].
      assert (X : abs m1 !! k = Some w) by (rewrite abs_lookup; unfold find, dget; cbn; rewrite R, L; cbn in *; now rewrite W).
      rewrite A1, abs_lookup in X. unfold find in X. rewrite R, dget_none in X; auto. discriminate. }
    destruct (dirty_set_ok m1 k v I1 F1 eq_refl) as (m' & E' & I' & A'). exists m'. split; [exact E'|]. split; auto. now rewrite A', A1.
Qed.

Lemma unexpunge_ok : forall m k e, Inv m -> rm m !! k = Some e ->
  exists m', unexpunge m k e = Some m' /\ Inv m' /\ abs m' = abs m /\ rm m' = rm m /\
    hp m' e = match hp m e with EExp => ENil | x => x end.
Proof.
  intros m k e I R. unfold unexpunge. destruct (hp m e) eqn:E; try (exists m; rewrite E; auto; fail).
  destruct (i_rm _ I _ _ R) as (KE & _).
  unfold dirty_set. cbn. destruct (dm m) as [d|] eqn:D; [|destruct (i_none _ I D) as (_ & NX); exfalso; eapply NX; eauto].
  destruct (i_some _ I _ D) as (AM & C). destruct (C _ _ R) as [(_ & Dk)|(X & _)]; [|congruence].
  eexists. split; [reflexivity|]. split; [|split; [|split; [reflexivity|cbn; now rewrite hset_same]]].
  - split; cbn; try discriminate.
    + apply (i_rm _ I).
    + intros d1 k' e' Ed L. injection Ed as <-. destruct (decide (k' = k)) as [->|N].
      * rewrite lookup_insert in L. injection L as <-. split; auto. split; [now apply (i_rm _ I k)|]. auto.
      * rewrite lookup_insert_ne in L by auto. destruct (i_dm _ I _ _ _ D L) as (X & Y & Z). split; auto. split; auto.
        destruct Z as [Z|(Z & w & W)]; auto. right. split; auto. exists w. rewrite hset_other; auto. congruence.
    + intros d1 Ed. injection Ed as <-. split; auto. intros k' e' L. destruct (decide (k' = k)) as [->|N].
      * assert (e' = e) by congruence. subst e'. right. rewrite hset_same, lookup_insert. split; [discriminate|auto].
      * rewrite lookup_insert_ne by auto. rewrite hset_other; auto. intros ->. destruct (i_rm _ I _ _ L). congruence.
  - apply map_eq. intros k'. rewrite !abs_lookup. unfold find, dget. cbn. rewrite D. cbn. destruct (decide (k' = k)) as [->|N].
    + rewrite R. cbn. rewrite hset_same. now rewrite E.
    + rewrite lookup_insert_ne by auto. destruct (rm m !! k') as [e'|] eqn:L.
      * cbn. rewrite hset_other; auto. intros ->. destruct (i_rm _ I _ _ L). congruence.
      * destruct (d !! k') as [e'|] eqn:L2; auto. cbn. rewrite hset_other; auto. intros ->. destruct (i_dm _ I _ _ _ D L2). congruence.
Qed.

(** ** Each operation *)
Definition refines (m : mp K V) (o : mop K V) : Prop :=
  exists m' r, step_op m o = Some (m', r) /\ Inv m' /\ plain (abs m) o = (abs m', r).

Lemma find_rm : forall m k e, rm m !! k = Some e -> find m k = Some e.
Proof. intros. unfold find. now rewrite H0. Qed.
Lemma find_dm : forall m k, rm m !! k = None -> find m k = dget m k.
Proof. intros. unfold find. now rewrite H0. Qed.
Lemma dget_am : forall m k e, Inv m -> dget m k = Some e -> am m = true.
Proof. intros m k e I D. destruct (am m) eqn:A; auto. rewrite dget_none in D by auto; discriminate. Qed.
Lemma dget_val : forall m k e, Inv m -> rm m !! k = None -> dget m k = Some e -> e.1 = k /\ exists v, hp m e = EVal v.
Proof.
  intros m k e I R D. unfold dget in D. destruct (dm m) as [d|] eqn:E; [|discriminate]. cbn in D.
  destruct (i_dm _ I _ _ _ E D) as (X & _ & [Y|(_ & Y)]); [congruence|auto].
Qed.

Lemma load_ok : forall m k, Inv m -> refines m (MLoad k).
Proof.
  intros m k I. unfold refines. cbn [step_op plain]. unfold load. destruct (rm m !! k) as [e|] eqn:R.
  - eexists _, _. split; [reflexivity|]. split; auto. rewrite abs_lookup, (find_rm _ _ _ R). cbn. unfold e_load, found.
    destruct (hp m e); reflexivity.
  - destruct (am m) eqn:A.
    + destruct (miss_ok m I A) as (I' & E'). destruct (dget m k) as [e|] eqn:D.
      * eexists _, _. split; [reflexivity|]. split; auto. rewrite E', abs_lookup, (find_dm _ _ R), D. cbn. unfold e_load. rewrite miss_hp.
        unfold found. destruct (hp m e); reflexivity.
      * eexists _, _. split; [reflexivity|]. split; auto. rewrite E', abs_lookup, (find_dm _ _ R), D. reflexivity.
    + eexists _, _. split; [reflexivity|]. split; auto. rewrite abs_lookup, (find_dm _ _ R), dget_none; auto.
Qed.

Lemma store_ok : forall m k v, Inv m -> refines m (MStore k v).
Proof.
  intros m k v I. unfold refines. cbn [step_op plain]. unfold store. destruct (rm m !! k) as [e|] eqn:R.
  - destruct (i_rm _ I _ _ R) as (KE & _). pose proof (find_rm _ _ _ R) as F. rewrite <- KE in F.
    destruct (hp m e) eqn:E.
    2: { destruct (unexpunge_ok m k e I R) as (m1 & E1 & I1 & A1 & R1 & H1). rewrite E1. cbn.
      rewrite E in H1. assert (F1 : find m1 e.1 = Some e) by (rewrite KE; apply find_rm; congruence).
      eexists _, _. split; [reflexivity|]. split.
      - apply inv_write; auto; try congruence; eauto.
      - rewrite abs_write by auto. cbn. now rewrite A1, KE. }
    all: cbn; eexists _, _; (split; [reflexivity|]); split; [apply inv_write; auto; try congruence; eauto|rewrite abs_write by auto; cbn; now rewrite KE].
  - destruct (dget m k) as [e|] eqn:D.
    + destruct (dget_val _ _ _ I R D) as (KE & w & W). cbn.
      assert (F : find m e.1 = Some e) by (rewrite KE; now rewrite find_dm).
      eexists _, _. split; [reflexivity|]. split; [apply inv_write; auto; try congruence; eauto|]. rewrite abs_write by auto. cbn. now rewrite KE.
    + destruct (insert_ok m k v I) as (m' & E & I' & A'); [rewrite find_dm; auto|]. rewrite E. cbn. eexists _, _. split; [reflexivity|]. split; auto. now rewrite A'.
Qed.

Lemma los_ok : forall m k v, Inv m -> exists m' r, loadOrStore m k v = Some (m', r) /\ Inv m' /\
  match abs m !! k with Some w => abs m' = abs m /\ r = (Some w, true) | None => abs m' = <[k := v]> (abs m) /\ r = (Some v, false) end.
Proof.
  intros m k v I. unfold loadOrStore. destruct (rm m !! k) as [e|] eqn:R.
  - destruct (i_rm _ I _ _ R) as (KE & _). pose proof (find_rm _ _ _ R) as F. rewrite <- KE in F.
    rewrite abs_lookup, (find_rm _ _ _ R). cbn.
    destruct (hp m e) eqn:E; cbn.
    + eexists _, _. split; [reflexivity|]. unfold apply_try. cbn. split; [apply inv_write; auto; try congruence; eauto|].
      rewrite abs_write by auto. cbn. now rewrite KE.
    + destruct (unexpunge_ok m k e I R) as (m1 & E1 & I1 & A1 & R1 & H1). rewrite E1. cbn. rewrite E in H1. rewrite H1. cbn.
      assert (F1 : find m1 e.1 = Some e) by (rewrite KE; apply find_rm; congruence).
      eexists _, _. split; [reflexivity|]. unfold apply_try. cbn. split; [apply inv_write; auto; try congruence; eauto|].
      rewrite abs_write by auto. cbn. now rewrite A1, KE.
    + eexists _, _. split; [reflexivity|]. auto.
  - rewrite abs_lookup, find_dm by auto. destruct (dget m k) as [e|] eqn:D.
    + destruct (dget_val _ _ _ I R D) as (KE & w & W). rewrite W. cbn. rewrite W. cbn.
      pose proof (dget_am _ _ _ I D) as A. destruct (miss_ok m I A) as (I' & E'). eexists _, _. split; [reflexivity|]. auto.
    + cbn. destruct (insert_ok m k v I) as (m' & E & I' & A'); [rewrite find_dm; auto|]. rewrite E. cbn. eexists _, _. split; [reflexivity|]. auto.
Qed.

Lemma cip_ok : forall m k g, Inv m -> refines m (MComputeIfPresent k g).
Proof.
  intros m k g I. unfold refines. cbn [step_op plain]. unfold computeIfPresent. destruct (rm m !! k) as [e|] eqn:R.
  - destruct (i_rm _ I _ _ R) as (KE & _). pose proof (find_rm _ _ _ R) as F. rewrite <- KE in F.
    rewrite abs_lookup, (find_rm _ _ _ R). cbn.
    destruct (hp m e) eqn:E; cbn.
    + eexists _, _. split; [reflexivity|]. auto.
    + destruct (unexpunge_ok m k e I R) as (m1 & E1 & I1 & A1 & R1 & H1). rewrite E1. cbn. rewrite E in H1. rewrite H1. cbn.
      eexists _, _. split; [reflexivity|]. split; auto. cbn. now rewrite A1.
    + eexists _, _. split; [reflexivity|]. unfold apply_try. cbn. split; [apply inv_write; auto; try congruence; eauto|].
      rewrite abs_write by auto. cbn. now rewrite KE.
  - rewrite abs_lookup, find_dm by auto. destruct (dget m k) as [e|] eqn:D.
    + destruct (dget_val _ _ _ I R D) as (KE & w & W). rewrite W. cbn. rewrite W. cbn.
      pose proof (dget_am _ _ _ I D) as A.
      assert (F : find m e.1 = Some e) by (rewrite KE; now rewrite find_dm).
      assert (I1 : Inv (write m e (EVal (g k w)))) by (apply inv_write; auto; try congruence; eauto).
      destruct (miss_ok _ I1 A) as (I' & E'). eexists _, _. split; [reflexivity|]. split; auto. rewrite E', abs_write by auto. cbn. now rewrite KE.
    + cbn. eexists _, _. split; [reflexivity|]. auto.
Qed.

Lemma write_gone : forall m e x, Inv m -> (forall k', find m k' <> Some e) -> Inv (write m e x) /\ abs (write m e x) = abs m.
Proof.
  intros m e x I GO.
  assert (RN : forall k', rm m !! k' <> Some e) by (intros k' X; apply (GO k'); now apply find_rm).
  split.
  - split; cbn.
    + apply (i_rm _ I).
    + intros d1 k' e' Ed L. destruct (i_dm _ I _ _ _ Ed L) as (X & Y & Z). split; auto. split; auto.
      destruct Z as [Z|(Z & w' & W')]; auto. right. split; auto. exists w'. rewrite hset_other; auto. intros ->.
      apply (GO k'). rewrite find_dm by auto. unfold dget. rewrite Ed. exact L.
    + intros Ed. destruct (i_none _ I Ed) as (X & Y). split; auto. intros k' e' L. rewrite hset_other; eauto. intros ->. eapply RN; eauto.
    + intros d1 Ed. destruct (i_some _ I _ Ed) as (X & Y). split; auto. intros k' e' L. rewrite hset_other; eauto. intros ->. eapply RN; eauto.
  - apply map_eq. intros k'. rewrite !abs_lookup. rewrite find_write.
    destruct (find m k') as [e'|] eqn:F; auto. cbn. rewrite hset_other; auto. intros ->. eapply GO; eauto.
Qed.

Lemma lad_ok : forall m k, Inv m -> Inv (fst (loadAndDelete m k)) /\
  (abs (fst (loadAndDelete m k)), snd (loadAndDelete m k)) = (delete k (abs m), found (abs m !! k)).
Proof.
  intros m k I. unfold loadAndDelete. rewrite abs_lookup. destruct (rm m !! k) as [e|] eqn:R.
  - destruct (i_rm _ I _ _ R) as (KE & _). pose proof (find_rm _ _ _ R) as F. rewrite F. cbn. rewrite <- KE in F. unfold e_delete.
    assert (DN : val (hp m e) = None -> delete k (abs m) = abs m).
    { intros X. apply delete_notin. rewrite abs_lookup, (find_rm _ _ _ R). exact X. }
    destruct (hp m e) eqn:E; cbn; [rewrite DN by auto; auto|rewrite DN by auto; auto|].
    split; [apply inv_write; auto; try congruence; rewrite KE, R; discriminate|]. rewrite abs_write by auto. cbn. now rewrite KE.
  - rewrite (find_dm _ _ R). destruct (am m) eqn:A.
    + set (m1 := Mp (hp m) (nid m) (rm m) true (delete k <$> dm m) (ms m)).
      destruct (dm m) as [d|] eqn:D; [|destruct (i_none _ I D); congruence].
      destruct (i_some _ I _ D) as (_ & C).
      assert (A1 : abs m1 = delete k (abs m)).
      { apply map_eq. intros k'. rewrite abs_lookup. unfold find, dget, m1. cbn. rewrite ?D. cbn. destruct (decide (k' = k)) as [->|N].
        - rewrite R, !lookup_delete. reflexivity.
        - rewrite !lookup_delete_ne by auto. rewrite abs_lookup. unfold find, dget. now rewrite D. }
      assert (I1 : Inv m1).
      { unfold m1. split; cbn; rewrite ?D; cbn; try discriminate.
        - apply (i_rm _ I).
        - intros d1 k' e Ed L. injection Ed as <-. apply lookup_delete_Some in L. destruct L as (_ & L). apply (i_dm _ I _ _ _ D L).
        - intros d1 Ed. injection Ed as <-. split; auto. intros k' e L. assert (k' <> k) by congruence. rewrite lookup_delete_ne by auto. auto. }
      destruct (miss_ok m1 I1 eq_refl) as (I' & E').
      destruct (dget m k) as [e|] eqn:G.
      * destruct (dget_val _ _ _ I R G) as (KE & w & W). unfold e_delete. rewrite miss_hp. cbn. rewrite W. cbn.
        assert (GO : forall k', find (missLocked m1) k' <> Some e).
        { intros k' F. destruct (find_key _ _ _ I' F) as (X & _). rewrite KE in X. subst k'.
          assert (Y : abs (missLocked m1) !! k = Some w) by (rewrite abs_lookup, F; cbn; rewrite miss_hp; cbn; now rewrite W).
          rewrite E', A1, lookup_delete in Y. discriminate. }
        destruct (write_gone _ e ENil I' GO) as (I2 & A2). split; [exact I2|]. unfold found. cbn. f_equal. rewrite <- A1, <- E'. exact A2.
      * cbn. split; auto. now rewrite E', A1.
    + rewrite dget_none by auto. cbn. split; auto. rewrite delete_notin; auto. rewrite abs_lookup, find_dm, dget_none; auto.
Qed.

Lemma clear_ok : forall m, Inv m -> Inv (clear m) /\ abs (clear m) = ∅.
Proof.
  intros m I. split.
  - split; cbn; try discriminate; intros; rewrite ?lookup_empty in *; try discriminate. split; [auto|]. intros. rewrite lookup_empty in *. discriminate.
  - apply map_eq. intros k. rewrite abs_lookup. unfold find, dget. cbn. now rewrite !lookup_empty.
Qed.

Lemma range_read_ok : forall m, Inv m -> Inv (range_read m) /\ abs (range_read m) = abs m /\ am (range_read m) = false.
Proof.
  intros m I. unfold range_read. destruct (am m) eqn:A; auto. destruct (inv_promote m I A) as (I' & E'). auto.
Qed.

Lemma step_ok : forall m o, Inv m -> refines m o.
Proof.
  intros m o I. destruct o.
  - now apply load_ok.
  - now apply store_ok.
  - unfold refines. cbn [step_op plain]. destruct (los_ok m k v I) as (m' & r & E & I' & P). rewrite E. eexists _, _. split; [reflexivity|].
    split; auto. destruct (abs m !! k); destruct P as (-> & ->); reflexivity.
  - unfold refines. cbn [step_op plain]. unfold computeIfAbsent. destruct (los_ok m k (f k) I) as (m' & r & E & I' & P). rewrite E. eexists _, _. split; [reflexivity|].
    split; auto. destruct (abs m !! k); destruct P as (-> & ->); reflexivity.
  - now apply cip_ok.
  - unfold refines. cbn [step_op plain]. destruct (loadAndDelete m k) as [m' r] eqn:E. pose proof (lad_ok m k I) as (I' & P). rewrite E in I', P. cbn in *.
    eexists _, _. split; [reflexivity|]. split; auto.
  - unfold refines. cbn [step_op plain]. destruct (lad_ok m k I) as (I' & P). eexists _, _. split; [reflexivity|]. split; auto.
    injection P as P _. now rewrite P.
  - unfold refines. cbn [step_op plain]. destruct (clear_ok m I) as (I' & P). eexists _, _. split; [reflexivity|]. split; auto. now rewrite P.
  - unfold refines. cbn [step_op plain]. destruct (range_read_ok m I) as (I' & P & _). eexists _, _. split; [reflexivity|]. split; auto. now rewrite P.
Qed.

Lemma run_ok : forall l m, Inv m -> exists m' rs, run_ops m l = Some (m', rs) /\ Inv m' /\ plain_run (abs m) l = (abs m', rs).
Proof.
  induction l as [|o l IH]; intros m I; cbn; [eauto|].
  destruct (step_ok m o I) as (m1 & r & E & I1 & P). rewrite E, P. cbn.
  destruct (IH m1 I1) as (m2 & rs & E2 & I2 & P2). rewrite E2, P2. cbn. eauto.
Qed.

(** The order in which dirtyLocked visits the entries does not matter. *)
Lemma copy_live_perm : forall l l' (h : heap K V), l ≡ₚ l' -> NoDup l.*1 -> (forall k e, (k, e) ∈ l -> e.1 = k /\ h e <> EExp) ->
  (forall e, fst (copy_live l h ∅) e = fst (copy_live l' h ∅) e) /\ snd (copy_live l h ∅) = snd (copy_live l' h ∅).
Proof.
  intros l l' h P ND HK. destruct (copy_live l h ∅) as [h1 d1] eqn:E1. destruct (copy_live l' h ∅) as [h2 d2] eqn:E2. cbn.
  assert (ND' : NoDup l'.*1) by (rewrite <- P; auto).
  destruct (copy_live_spec _ _ _ _ _ E1 ND) as (A1 & B1 & C1).
  { intros k e X. now apply HK. } { intros k e X. split; [apply lookup_empty|now apply (HK k)]. }
  destruct (copy_live_spec _ _ _ _ _ E2 ND') as (A2 & B2 & C2).
  { intros k e X. apply HK. now rewrite P. } { intros k e X. split; [apply lookup_empty|apply (HK k); now rewrite P]. }
  split.
  - intros e. rewrite A1, A2. destruct (decide ((e.1, e) ∈ l)) as [X|X], (decide ((e.1, e) ∈ l')) as [Y|Y]; auto; exfalso; rewrite P in X; auto.
  - apply map_eq. intros k. destruct (decide (k ∈ l.*1)) as [X|X].
    + apply elem_of_list_fmap in X. destruct X as ([k' e] & -> & X). cbn. rewrite (C1 _ _ X). rewrite P in X. now rewrite (C2 _ _ X).
    + rewrite B1 by auto. rewrite P in X. now rewrite B2.
Qed.
(** The calls a range loop makes *)
Lemma range_loop_calls : forall (h : heap K V) (f : list (K * V) -> K -> V -> bool), forall order past, NoDup order.*1 -> NoDup past.*1 -> (forall k, k ∈ past.*1 -> k ∉ order.*1) ->
    exists new, range_loop h order f past = past ++ new /\ NoDup (past ++ new).*1 /\
      (forall k v, (k, v) ∈ new -> exists e, (k, e) ∈ order /\ h e = EVal v) /\ legal_calls f past new /\
      ((forall k v e, (k, e) ∈ order -> h e = EVal v -> (k, v) ∈ new) \/
       exists pre k v, new = pre ++ [(k, v)] /\ f (past ++ pre) k v = false).
Proof.
  intros h f. induction order as [|[k e] order IH]; intros past ND NP DJ; cbn [range_loop].
    - exists []. rewrite app_nil_r. split; auto. split; auto. split; [intros k v X; now apply elem_of_nil in X|]. split; [exact I|].
      left. intros k v e X. now apply elem_of_nil in X.
    - cbn [fmap list_fmap] in ND. apply NoDup_cons in ND. destruct ND as (NI & ND).
      assert (SKIP : forall x, h e = x -> (forall v, x <> EVal v) -> exists new, range_loop h order f past = past ++ new /\ NoDup (past ++ new).*1 /\
         (forall k' v, (k', v) ∈ new -> exists e', (k', e') ∈ (k, e) :: order /\ h e' = EVal v) /\ legal_calls f past new /\
         ((forall k' v e', (k', e') ∈ (k, e) :: order -> h e' = EVal v -> (k', v) ∈ new) \/
          exists pre k' v, new = pre ++ [(k', v)] /\ f (past ++ pre) k' v = false)).
      { intros x Hx NV. destruct (IH past ND NP) as (new & A1 & A2 & A3 & A4 & A5).
        { intros k' X Y. apply (DJ k' X). cbn. apply elem_of_cons. auto. }
        exists new. split; auto. split; auto. split.
        { intros k' v X. destruct (A3 _ _ X) as (e' & Y & Z). exists e'. split; auto. apply elem_of_cons. auto. }
        split; auto. destruct A5 as [A5|A5]; auto. left. intros k' v e' X Y. apply elem_of_cons in X. destruct X as [X|X]; [|eauto].
        injection X as -> ->. exfalso. apply (NV v). congruence. }
      destruct (h e) as [| |v] eqn:Hx; [apply (SKIP ENil); auto; discriminate|apply (SKIP EExp); auto; discriminate|].
      clear SKIP.
      assert (KP : k ∉ past.*1) by (intros X; apply (DJ k X); cbn; apply elem_of_cons; auto).
      assert (NP' : NoDup (past ++ [(k, v)]).*1).
      { rewrite fmap_app. apply NoDup_app. split; auto. split; [|apply NoDup_singleton]. intros k' X Y. cbn in Y.
        apply elem_of_list_singleton in Y. subst. auto. }
      destruct (f past k v) eqn:F.
      + destruct (IH (past ++ [(k, v)]) ND NP') as (new & A1 & A2 & A3 & A4 & A5).
        { intros k' X. rewrite fmap_app in X. apply elem_of_app in X. destruct X as [X|X].
          - intros Y. apply (DJ k' X). cbn. apply elem_of_cons. auto.
          - cbn in X. apply elem_of_list_singleton in X. now subst. }
        exists ((k, v) :: new). rewrite A1, <- app_assoc. split; auto. rewrite <- app_assoc in A2. split; auto. split.
        { intros k' v' X. apply elem_of_cons in X. destruct X as [X|X].
          - injection X as -> ->. exists e. split; auto. apply elem_of_cons. auto.
          - destruct (A3 _ _ X) as (e' & Y & Z). exists e'. split; auto. apply elem_of_cons. auto. }
        split; [cbn; auto|]. destruct A5 as [A5|(pre & k' & v' & -> & A5)].
        * left. intros k' v' e' X Y. apply elem_of_cons. apply elem_of_cons in X. destruct X as [X|X]; [|right; eauto].
          injection X as -> ->. left. congruence.
        * right. exists ((k, v) :: pre), k', v'. split; auto. now rewrite <- app_assoc in A5.
      + exists [(k, v)]. split; auto. split; auto. split.
        { intros k' v' X. apply elem_of_list_singleton in X. injection X as -> ->. exists e. split; auto. apply elem_of_cons. auto. }
        split; [cbn; auto|]. right. exists [], k, v. rewrite app_nil_r. auto.
Qed.
End Map.
