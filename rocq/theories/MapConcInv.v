(** * The contents of a concurrent Map and the invariant of its representation *)
From Coq Require Import List Bool Arith Lia Permutation.
From stdpp Require Import gmap.
From Verif Require Import Trans MapConcSpec MapConcModel.

Section Inv.
Context {K : Type} `{Countable K} {V : Type}.
Notation mem := (mem K V).
Notation entry := (entry K).
Notation amap := (gmap K V).

(** What the map contains: for each key the entry in read.m, or else the one in dirty *)
Definition abs (g : mem) : amap := omap (fun e => eptr_val (heap g e)) (rm g ∪ default ∅ (dm g)).

Lemma abs_lookup : forall g k, abs g !! k =
  match rm g !! k with Some e => eptr_val (heap g e) | None => match dget g k with Some e => eptr_val (heap g e) | None => None end end.
Proof.
  intros g k. unfold abs, dget. rewrite lookup_omap, lookup_union. destruct (rm g !! k) as [e|]; destruct (dm g) as [d|]; cbn;
    try (destruct (d !! k)); rewrite ?lookup_empty; reflexivity.
Qed.

Definition inR (g : mem) (e : entry) : Prop := rm g !! (fst e) = Some e.
Definition inD (g : mem) (e : entry) : Prop := dget g (fst e) = Some e.
(** The entry that decides about its key *)
Definition live (g : mem) (e : entry) : Prop := inR g e \/ (rm g !! (fst e) = None /\ inD g e).

#[global] Instance live_dec : forall g e, Decision (live g e).
Proof. intros g e. unfold live, inR, inD, dget. apply _. Qed.

(** pend: entries of read.m not yet brought into line with dirty; bld: dirty is being made *)
Record GI (g : mem) (pend : list (K * entry)) (bld : bool) : Prop := {
  gi_rm : forall k e, rm g !! k = Some e -> fst e = k /\ snd e < nid g;
  gi_dm : forall k e, dget g k = Some e -> fst e = k /\ snd e < nid g;
  gi_agree : forall k e e', rm g !! k = Some e -> dget g k = Some e' -> e' = e;
  gi_donly : forall k e, rm g !! k = None -> dget g k = Some e -> exists s v, heap g e = EVal s v;
  gi_am : am g = false -> forall k e, dget g k = Some e -> rm g !! k = Some e;
  gi_exp : forall k e, rm g !! k = Some e -> ~ In (k, e) pend -> (heap g e = EExp <-> is_Some (dm g) /\ dget g k = None);
  gi_pend : forall k e, In (k, e) pend -> rm g !! k = Some e /\ heap g e <> EExp /\ dget g k = None;
  gi_nodup : List.NoDup (map fst pend);
  gi_flag : if bld then am g = false /\ is_Some (dm g) else (am g = true <-> is_Some (dm g))
}.

Lemma live_abs : forall g e, live g e -> abs g !! (fst e) = eptr_val (heap g e).
Proof. intros g e [E|[E1 E2]]; rewrite abs_lookup; unfold inR, inD in *; [now rewrite E|now rewrite E1, E2]. Qed.

Lemma hset_same : forall h (e : entry) (x : eptr V), hset h e x e = x.
Proof. intros. unfold hset. now rewrite decide_True. Qed.
Lemma hset_other : forall h (e e' : entry) (x : eptr V), e' <> e -> hset h e x e' = h e'.
Proof. intros. unfold hset. now rewrite decide_False. Qed.

Section W.
Variables (g : mem) (pend : list (K * entry)) (bld : bool).
Hypothesis G : GI g pend bld.

(** which keys lead to e: only its own *)
Lemma path_key : forall e k, (rm g !! k = Some e \/ dget g k = Some e) -> k = fst e.
Proof. intros e k [E|E]; [apply (gi_rm _ _ _ G) in E|apply (gi_dm _ _ _ G) in E]; symmetry; apply E. Qed.

(** the contents after a write to an entry *)
Lemma abs_heap : forall g' e x, rm g' = rm g -> dm g' = dm g -> heap g' = hset (heap g) e x ->
  forall k, abs g' !! k = if decide (k = fst e /\ live g e) then eptr_val x else abs g !! k.
Proof.
  intros g' e x Er Ed Eh k. rewrite !abs_lookup. unfold dget. rewrite Er, Ed, Eh. fold (dget g k).
  destruct (rm g !! k) as [e1|] eqn:E1.
  - destruct (decide (e1 = e)) as [->|N].
    + rewrite hset_same. assert (k = fst e) as -> by (apply path_key; auto). rewrite decide_True; auto. split; auto. left. exact E1.
    + rewrite hset_other by auto. rewrite decide_False; auto. intros [-> [X|[X _]]]; unfold inR in *; congruence.
  - destruct (dget g k) as [e1|] eqn:E2.
    + destruct (decide (e1 = e)) as [->|N].
      * rewrite hset_same. assert (k = fst e) as -> by (apply path_key; auto). rewrite decide_True; auto. split; auto. right. auto.
      * rewrite hset_other by auto. rewrite decide_False; auto. intros [-> [X|[_ X]]]; unfold inR, inD in *; congruence.
    + rewrite decide_False; auto. intros [-> [X|[_ X]]]; unfold inR, inD in *; congruence.
Qed.

Lemma abs_wval : forall e v, live g e -> abs (wval g e v) = <[fst e := v]> (abs g).
Proof.
  intros e v L. apply map_eq. intros k. rewrite (abs_heap (wval g e v) e (EVal (nst g e) v)) by reflexivity.
  destruct (decide (k = fst e)) as [->|N].
  - rewrite decide_True by auto. now rewrite lookup_insert.
  - rewrite decide_False by tauto. rewrite lookup_insert_ne by congruence; auto.
Qed.
Lemma abs_wnil : forall e, live g e -> abs (wptr g e ENil) = delete (fst e) (abs g).
Proof.
  intros e L. apply map_eq. intros k. rewrite (abs_heap (wptr g e ENil) e ENil) by reflexivity.
  destruct (decide (k = fst e)) as [->|N].
  - rewrite decide_True by auto. now rewrite lookup_delete.
  - rewrite decide_False by tauto. rewrite lookup_delete_ne by congruence; auto.
Qed.
Lemma abs_wsame : forall e x, eptr_val x = eptr_val (heap g e) -> abs (wptr g e x) = abs g.
Proof.
  intros e x E. apply map_eq. intros k. rewrite (abs_heap (wptr g e x) e x) by reflexivity.
  destruct (decide (k = fst e /\ live g e)) as [[-> L]|N]; auto. rewrite E. symmetry. now apply live_abs.
Qed.
Lemma abs_wdet : forall e x, ~ inR g e -> ~ inD g e -> abs (wptr g e x) = abs g.
Proof.
  intros e x N1 N2. apply map_eq. intros k. rewrite (abs_heap (wptr g e x) e x) by reflexivity.
  rewrite decide_False; auto. intros [_ [X|[_ X]]]; auto.
Qed.
Lemma abs_add : forall d k e e', dm g = Some d -> rm g !! k = Some e' -> abs (wdirty g (Some (<[k := e]> d))) = abs g.
Proof.
  intros d k e e' Ed Er. apply map_eq. intros k'. rewrite !abs_lookup. cbn. destruct (rm g !! k') eqn:E; auto.
  assert (k' <> k) by congruence. unfold dget. cbn. rewrite Ed. cbn. rewrite lookup_insert_ne by congruence; auto.
Qed.
Lemma abs_make : dm g = None -> abs (wdirty g (Some ∅)) = abs g.
Proof.
  intros Ed. apply map_eq. intros k'. rewrite !abs_lookup. cbn. destruct (rm g !! k') eqn:E; auto.
  unfold dget. cbn. rewrite Ed. cbn. now rewrite lookup_empty.
Qed.
Lemma abs_drop : forall k, rm g !! k = None -> abs (wdirty g (delete k <$> dm g)) = delete k (abs g).
Proof.
  intros k Er. apply map_eq. intros k'. destruct (decide (k' = k)) as [->|N].
  - rewrite lookup_delete, abs_lookup. cbn. rewrite Er. unfold dget. cbn. destruct (dm g); cbn; auto. now rewrite lookup_delete.
  - rewrite lookup_delete_ne by congruence. rewrite !abs_lookup. cbn. destruct (rm g !! k'); auto. unfold dget. cbn.
    destruct (dm g); cbn; auto. rewrite lookup_delete_ne by congruence; auto.
Qed.
Lemma abs_new : forall d k v, dm g = Some d -> rm g !! k = None -> abs (wnew g d k v) = <[k := v]> (abs g).
Proof.
  intros d k v Ed Er. apply map_eq. intros k'. destruct (decide (k' = k)) as [->|N].
  - rewrite lookup_insert, abs_lookup. cbn. rewrite Er. unfold dget. cbn. rewrite lookup_insert. now rewrite hset_same.
  - rewrite lookup_insert_ne by congruence. rewrite !abs_lookup. cbn. destruct (rm g !! k') as [e|] eqn:E.
    + rewrite hset_other; auto. intros ->. apply (gi_rm _ _ _ G) in E. cbn in E. destruct E; congruence.
    + unfold dget. cbn. rewrite Ed. cbn. rewrite lookup_insert_ne by congruence. destruct (d !! k') as [e|] eqn:E2; auto.
      rewrite hset_other; auto. intros ->. assert (X : dget g k' = Some (k, nid g)) by (unfold dget; now rewrite Ed).
      apply (gi_dm _ _ _ G) in X. cbn in X. destruct X; congruence.
Qed.
End W.

Lemma abs_promote : forall g, GI g [] false -> is_Some (dm g) -> abs (promote g) = abs g.
Proof.
  intros g G [d Ed]. apply map_eq. intros k. rewrite !abs_lookup. cbn. unfold dget. rewrite Ed. cbn.
  destruct (rm g !! k) as [e|] eqn:E.
  - destruct (d !! k) as [e'|] eqn:E2.
    + assert (e' = e) as -> by (apply (gi_agree _ _ _ G k); auto; unfold dget; now rewrite Ed). reflexivity.
    + assert (X : heap g e = EExp). { apply (gi_exp _ _ _ G k e E); [intros []|]. split; [rewrite Ed; eauto|]. unfold dget. now rewrite Ed. }
      now rewrite X.
  - destruct (d !! k); auto.
Qed.

(** ** The invariant is kept *)
Lemma GI_write : forall g pend bld g' e x, GI g pend bld -> rm g' = rm g -> dm g' = dm g -> am g' = am g -> nid g' = nid g -> heap g' = hset (heap g) e x ->
  heap g e <> EExp -> x <> EExp -> (rm g !! (fst e) = None -> inD g e -> exists s v, x = EVal s v) -> GI g' pend bld.
Proof.
  intros g pend bld g' e x [] Er Ed Ea En Eh N1 N2 HD.
  constructor; unfold dget in *; rewrite ?Er, ?Ed, ?Ea, ?En, ?Eh; auto.
  - intros k e' E1 E2. destruct (decide (e' = e)) as [->|N]; [|rewrite hset_other; eauto]. rewrite hset_same. apply HD.
    + assert (k = fst e) as <-; auto. symmetry. now apply gi_dm0.
    + unfold inD, dget. assert (k = fst e) as <-; auto. symmetry. now apply gi_dm0.
  - intros k e' E1 E2. destruct (decide (e' = e)) as [->|N]; [|rewrite hset_other; auto].
    rewrite hset_same. rewrite <- (gi_exp0 k e) by auto. split; intros; congruence.
  - intros k e' E1. destruct (gi_pend0 k e' E1) as (A & B & C). repeat split; auto.
    destruct (decide (e' = e)) as [->|N]; [rewrite hset_same|rewrite hset_other]; auto.
Qed.

Lemma GI_unexp : forall g e, GI g [] false -> inR g e -> heap g e = EExp -> GI (wptr g e ENil) [(fst e, e)] false.
Proof.
  intros g e G Er Ex. pose proof G as G0. destruct G. destruct (proj1 (gi_exp0 _ _ Er (fun X => X)) Ex) as [D1 D2].
  constructor; cbn; auto.
  - intros k e' E1 E2. unfold dget in *; cbn in *. rewrite hset_other; eauto. intros ->. destruct (gi_donly0 _ _ E1 E2) as (s & v & X). congruence.
  - intros k e' E1 N. rewrite hset_other; [apply gi_exp0; auto|]. intros ->. apply N. left. f_equal. apply (gi_rm0 _ _ E1).
  - intros k e' [X|[]]. injection X as <- <-. repeat split; auto. rewrite hset_same. discriminate.
  - repeat constructor. intros [].
Qed.

Lemma GI_add : forall g e d, GI g [(fst e, e)] false -> dm g = Some d -> GI (wdirty g (Some (<[fst e := e]> d))) [] false.
Proof.
  intros g e d G Ed. pose proof G as G0. destruct G. destruct (gi_pend0 _ _ (or_introl eq_refl)) as (P1 & P2 & P3).
  set (g' := wdirty g (Some (<[fst e := e]> d))).
  assert (L : forall k, dget g' k = if decide (k = fst e) then Some e else dget g k).
  { intros k. unfold dget. cbn. rewrite Ed. cbn. destruct (decide (k = fst e)) as [->|N]; [now rewrite lookup_insert|rewrite lookup_insert_ne by congruence; auto]. }
  assert (Er' : rm g' = rm g) by reflexivity. assert (Ea' : am g' = am g) by reflexivity.
  assert (Es : is_Some (dm g')) by (cbn; eauto). assert (En : nid g' = nid g) by (cbn; auto). assert (Eh : heap g' = heap g) by reflexivity. clearbody g'.
  assert (A : am g = true) by (apply gi_flag0; rewrite Ed; eauto).
  constructor; rewrite ?Er', ?Ea', ?Eh, ?En; auto.
  - intros k e'. rewrite L. destruct (decide (k = fst e)) as [->|N]; auto. intros X. injection X as <-. now apply gi_rm0.
  - intros k e1 e2 E1. rewrite L. destruct (decide (k = fst e)) as [->|N]; [congruence|eauto].
  - intros k e1 E1. rewrite L. destruct (decide (k = fst e)) as [->|N]; [congruence|eauto].
  - congruence.
  - intros k e1 E1 _. rewrite L. destruct (decide (k = fst e)) as [->|N].
    + assert (e1 = e) as -> by congruence. split; [contradiction|]. intros [_ X]. discriminate.
    + rewrite (gi_exp0 k e1 E1) by (intros [X|[]]; congruence). rewrite Ed. split; intros [X Y]; split; eauto.
  - intros k e1 [].
  - constructor.
  - rewrite A. split; eauto.
Qed.

Lemma GI_make : forall g l, GI g [] false -> dm g = None -> l ≡ₚ map_to_list (rm g) -> GI (wdirty g (Some ∅)) l true.
Proof.
  intros g l G Ed Pl. pose proof G as G0. destruct G.
  set (g' := wdirty g (Some ∅)).
  assert (L : forall k, dget g' k = None) by (intros k; unfold dget; cbn; apply lookup_empty).
  assert (Er' : rm g' = rm g) by reflexivity. assert (Ea' : am g' = am g) by reflexivity.
  assert (Es : is_Some (dm g')) by (cbn; eauto). assert (En : nid g' = nid g) by (cbn; auto). assert (Eh : heap g' = heap g) by reflexivity. clearbody g'.
  assert (HI : forall k e, In (k, e) l <-> rm g !! k = Some e).
  { intros k e. rewrite <- elem_of_list_In, Pl. apply elem_of_map_to_list. }
  assert (A : am g = false). { destruct (am g); auto. destruct (proj1 gi_flag0 eq_refl) as [? X]. congruence. }
  constructor; rewrite ?Er', ?Ea', ?Eh, ?En; auto.
  - intros k e. rewrite L. discriminate.
  - intros k e e' _. rewrite L. discriminate.
  - intros k e _. rewrite L. discriminate.
  - intros _ k e. rewrite L. discriminate.
  - intros k e E N. exfalso. apply N. now apply HI.
  - intros k e E. apply HI in E. repeat split; auto. intros X. apply gi_exp0 with (k := k) in X; auto. rewrite Ed in X. destruct X as [[? X] _]. discriminate.
  - assert (ND : NoDup l.*1) by (rewrite Pl; apply NoDup_fst_map_to_list). apply NoDup_ListNoDup in ND. exact ND.
Qed.

Lemma GI_bval : forall g k e l d s v, GI g ((k, e) :: l) true -> dm g = Some d -> heap g e = EVal s v -> GI (wdirty g (Some (<[k := e]> d))) l true.
Proof.
  intros g k e l d s v G Ed Ev. pose proof G as G0. destruct G. destruct (gi_pend0 _ _ (or_introl eq_refl)) as (P1 & P2 & P3).
  set (g' := wdirty g (Some (<[k := e]> d))).
  assert (L : forall k', dget g' k' = if decide (k' = k) then Some e else dget g k').
  { intros k'. unfold dget. cbn. rewrite Ed. cbn. destruct (decide (k' = k)) as [->|N]; [now rewrite lookup_insert|rewrite lookup_insert_ne by congruence; auto]. }
  assert (Er' : rm g' = rm g) by reflexivity. assert (Ea' : am g' = am g) by reflexivity.
  assert (Es : is_Some (dm g')) by (cbn; eauto). assert (En : nid g' = nid g) by (cbn; auto). assert (Eh : heap g' = heap g) by reflexivity. clearbody g'.
  cbn in gi_nodup0. inversion gi_nodup0 as [|? ? N1 N2]; subst. destruct gi_flag0 as [A B].
  constructor; rewrite ?Er', ?Ea', ?Eh, ?En; auto.
  - intros k' e'. rewrite L. destruct (decide (k' = k)) as [->|N]; auto. intros X. injection X as <-. now apply gi_rm0.
  - intros k' e1 e2 E1. rewrite L. destruct (decide (k' = k)) as [->|N]; [congruence|eauto].
  - intros k' e1 E1. rewrite L. destruct (decide (k' = k)) as [->|N]; [congruence|eauto].
  - intros _ k' e1. rewrite L. destruct (decide (k' = k)) as [->|N]; [congruence|eauto].
  - intros k' e1 E1 NI. rewrite L. destruct (decide (k' = k)) as [->|N].
    + assert (e1 = e) as -> by congruence. split; [congruence|]. intros [_ X]. discriminate.
    + rewrite (gi_exp0 k' e1 E1) by (intros [X|X]; congruence). rewrite Ed. split; intros [X Y]; split; eauto.
  - intros k' e1 I. rewrite L. destruct (gi_pend0 k' e1 (or_intror I)) as (X & Y & Z). destruct (decide (k' = k)) as [->|N]; auto.
    exfalso. apply N1. change k with (fst (k, e1)). now apply in_map.
Qed.

Lemma GI_bexp : forall g k e l, GI g ((k, e) :: l) true -> GI (wptr g e EExp) l true.
Proof.
  intros g k e l G. pose proof G as G0. destruct G. destruct (gi_pend0 _ _ (or_introl eq_refl)) as (P1 & P2 & P3).
  cbn in gi_nodup0. inversion gi_nodup0 as [|? ? N1 N2]; subst. destruct gi_flag0 as [A B].
  constructor; cbn; auto; unfold dget in *; cbn.
  - intros k' e' E1 E2. rewrite hset_other; eauto. intros ->. assert (k' = k); [|subst; congruence].
    destruct (gi_rm0 _ _ P1) as [<- _]. symmetry. apply (gi_dm0 _ _ E2).
  - intros k' e' E1 NI. destruct (decide (e' = e)) as [->|N].
    + assert (k' = k) as ->. { destruct (gi_rm0 _ _ P1) as [<- _]. symmetry. apply (gi_rm0 _ _ E1). } rewrite hset_same. tauto.
    + rewrite hset_other by auto. apply gi_exp0; auto. intros [X|X]; congruence.
  - intros k' e' I. destruct (gi_pend0 k' e' (or_intror I)) as (X & Y & Z). repeat split; auto. rewrite hset_other; auto.
    intros ->. apply N1. assert (k' = k) as <-. { destruct (gi_rm0 _ _ P1) as [<- _]. symmetry. apply (gi_rm0 _ _ X). }
    change k' with (fst (k', e)). now apply in_map.
Qed.

Lemma GI_amend : forall g, GI g [] true -> GI (wamend g) [] false.
Proof.
  intros g []. destruct gi_flag0 as [A B]. constructor; cbn; auto; unfold dget in *; cbn; auto; try discriminate. split; auto.
Qed.

Lemma GI_new : forall g d k v, GI g [] false -> dm g = Some d -> rm g !! k = None -> GI (wnew g d k v) [] false.
Proof.
  intros g d k v G Ed Er. pose proof G as G0. destruct G.
  set (g' := wnew g d k v).
  assert (L : forall k', dget g' k' = if decide (k' = k) then Some (k, nid g) else dget g k').
  { intros k'. unfold dget. cbn. rewrite Ed. cbn. destruct (decide (k' = k)) as [->|N]; [now rewrite lookup_insert|rewrite lookup_insert_ne by congruence; auto]. }
  assert (Er' : rm g' = rm g) by reflexivity. assert (Ea' : am g' = am g) by reflexivity.
  assert (Es : is_Some (dm g')) by (cbn; eauto). assert (En : nid g' = S (nid g)) by (cbn; auto). assert (Eh : heap g' = hset (heap g) (k, nid g) (EVal (nst g (k, nid g)) v)) by reflexivity. clearbody g'.
  assert (A : am g = true) by (apply gi_flag0; rewrite Ed; eauto).
  assert (F : forall e, snd e < nid g -> e <> (k, nid g)) by (intros e X ->; cbn in X; lia).
  constructor; rewrite ?Er', ?Ea', ?Eh, ?En; auto.
  - intros k' e E. destruct (gi_rm0 _ _ E). split; auto.
  - intros k' e. rewrite L. cbn. destruct (decide (k' = k)) as [->|N]; [intros X; injection X as <-; auto|]. intros E. destruct (gi_dm0 _ _ E). auto.
  - intros k' e e' E. rewrite L. destruct (decide (k' = k)) as [->|N]; [congruence|eauto].
  - intros k' e E. rewrite L. destruct (decide (k' = k)) as [->|N].
    + intros X. injection X as <-. rewrite hset_same. eauto.
    + intros X. rewrite hset_other; eauto. apply F. now apply (gi_dm0 _ _ X).
  - congruence.
  - intros k' e E NI. rewrite L. rewrite hset_other by (apply F; now apply (gi_rm0 _ _ E)).
    rewrite (gi_exp0 _ _ E NI). rewrite Ed. destruct (decide (k' = k)) as [->|N]; [congruence|]. split; intros [X Y]; split; auto; rewrite ?Ed; eauto.
  - intros k' e [].
  - rewrite A. split; eauto.
Qed.

Lemma GI_promote : forall g, GI g [] false -> is_Some (dm g) -> GI (promote g) [] false.
Proof.
  intros g G [d Ed]. pose proof G as G0. destruct G.
  assert (L : forall k, default ∅ (dm g) !! k = dget g k) by (intros k; unfold dget; now rewrite Ed).
  assert (D : forall k, dget (promote g) k = None) by reflexivity.
  constructor.
  - cbn [promote rm]. intros k e. rewrite L. apply gi_dm0.
  - intros k e. rewrite D. discriminate.
  - intros k e e' _. rewrite D. discriminate.
  - intros k e _. rewrite D. discriminate.
  - intros _ k e. rewrite D. discriminate.
  - cbn [promote rm heap dm]. intros k e E _. rewrite L in E. split; [|intros [[? X] _]; discriminate]. intros X. exfalso.
    destruct (rm g !! k) as [e0|] eqn:E0.
    + assert (e = e0) as -> by eauto. apply gi_exp0 with (k := k) in X; auto. destruct X; congruence.
    + destruct (gi_donly0 _ _ E0 E) as (s & v & Y). congruence.
  - intros k e [].
  - constructor.
  - cbn. split; [discriminate|intros [? X]; discriminate].
Qed.

Lemma GI_drop : forall g k, GI g [] false -> rm g !! k = None -> GI (wdirty g (delete k <$> dm g)) [] false.
Proof.
  intros g k G Er. pose proof G as G0. destruct G.
  set (g' := wdirty g (delete k <$> dm g)).
  assert (L : forall k', dget g' k' = if decide (k' = k) then None else dget g k').
  { intros k'. unfold dget. cbn. destruct (dm g); cbn; [|now destruct decide].
    destruct (decide (k' = k)) as [->|N]; [now rewrite lookup_delete|rewrite lookup_delete_ne by congruence; auto]. }
  assert (Er' : rm g' = rm g) by reflexivity. assert (Ea' : am g' = am g) by reflexivity.
  assert (Es : is_Some (dm g') <-> is_Some (dm g)) by apply fmap_is_Some.
  assert (En : nid g' = nid g) by (cbn; auto). assert (Eh : heap g' = heap g) by reflexivity. clearbody g'.
  constructor; rewrite ?Er', ?Ea', ?Eh, ?En; auto.
  - intros k' e. rewrite L. destruct (decide (k' = k)); [discriminate|auto].
  - intros k' e e' E. rewrite L. destruct (decide (k' = k)); [discriminate|eauto].
  - intros k' e E. rewrite L. destruct (decide (k' = k)); [discriminate|eauto].
  - intros A k' e. rewrite L. destruct (decide (k' = k)); [discriminate|eauto].
  - intros k' e E NI. rewrite L. destruct (decide (k' = k)) as [->|N]; [congruence|]. rewrite (gi_exp0 _ _ E NI), Es. reflexivity.
  - intros k' e [].
  - rewrite gi_flag0, Es. reflexivity.
Qed.
End Inv.
