(** * C48, C49: Map used by one goroutine *)
From Coq Require Import List Bool Lia.
From stdpp Require Import gmap.
From Verif Require Import MapSeqModel MapSeqSpec MapSeqProofs.

Section Map.
Context {K : Type} `{Countable K} {V : Type}.

(** Whatever sequence of operations runs on a zero Map, nothing panics and every result is
    the one a plain map gives. *)
Theorem C48_refines : forall l : list (mop K V), exists m, run_ops empty_map l = Some (m, snd (plain_run ∅ l)).
Proof.
  intros l. destruct (run_ok l empty_map inv_empty) as (m & rs & E & I & P).
  assert (A : abs (empty_map (K:=K) (V:=V)) = ∅) by (apply map_eq; intros k; rewrite abs_lookup; unfold find, dget; cbn; now rewrite !lookup_empty).
  rewrite A in P. rewrite P. exists m. exact E.
Qed.

(** After any sequence of operations, for every order in which Go may iterate, Range calls
    f on distinct present bindings, goes on as long as f answers true, stops right after a
    false, and if f never answers false every present binding is visited. *)
Theorem C49_range : forall (l : list (mop K V)) m rs f order, run_ops empty_map l = Some (m, rs) ->
  order ≡ₚ map_to_list (rm (range_read m)) ->
  exists visits, range_loop (hp (range_read m)) order f [] = visits /\
    NoDup visits.*1 /\ (forall k v, (k, v) ∈ visits -> fst (plain_run ∅ l) !! k = Some v) /\
    legal_calls f [] visits /\
    ((forall k v, fst (plain_run ∅ l) !! k = Some v -> (k, v) ∈ visits) \/
     exists pre k v, visits = pre ++ [(k, v)] /\ f pre k v = false).
Proof.
  intros l m rs f order R P.
  destruct (run_ok l empty_map inv_empty) as (m0 & rs0 & E & I & Q).
  rewrite R in E. injection E as <- <-.
  assert (A : abs (empty_map (K:=K) (V:=V)) = ∅) by (apply map_eq; intros k; rewrite abs_lookup; unfold find, dget; cbn; now rewrite !lookup_empty).
  rewrite A in Q. rewrite Q. cbn [fst]. destruct (range_read_ok m I) as (I' & A' & AM). rewrite <- A'.
  remember (range_read m) as m1 eqn:Em. clear Em A' R Q A I m rs l.
  assert (AB : forall k v, abs m1 !! k = Some v <-> exists e, (k, e) ∈ order /\ hp m1 e = EVal v).
  { intros k v. rewrite abs_lookup. unfold find. rewrite dget_none by auto. setoid_rewrite P.
    setoid_rewrite elem_of_map_to_list. destruct (rm m1 !! k) as [e|]; cbn.
    - unfold val. split.
      + intros X. exists e. split; auto. destruct (hp m1 e); congruence.
      + intros (e' & X & Y). injection X as <-. now rewrite Y.
    - split; [discriminate|]. intros (e & X & _). discriminate. }
  assert (ND : NoDup order.*1) by (rewrite P; apply NoDup_fst_map_to_list).
  eexists. split; [reflexivity|].
  pose proof (range_loop_calls (hp m1) f) as G.
  destruct (G order [] ND) as (new & -> & A2 & A3 & A4 & A5); [apply NoDup_nil_2|intros k X; now apply elem_of_nil in X|].
  cbn [app] in *. split; auto. split; [intros k v X; apply AB; eauto|]. split; auto.
  destruct A5 as [A5|A5]; [|auto]. left. intros k v X. apply AB in X. destruct X as (e & X & Y). eauto.
Qed.

(** Range does not change the contents, and after Clear nothing is present. *)
Theorem C49_unchanged : forall (l1 l2 : list (mop K V)) m rs, run_ops empty_map (l1 ++ MRange :: l2) = Some (m, rs) ->
  exists m' rs', run_ops empty_map (l1 ++ l2) = Some (m', rs') /\ rs = take (length l1) rs' ++ (None, false) :: drop (length l1) rs'.
Proof.
  intros l1 l2 m rs R. destruct (C48_refines (l1 ++ MRange :: l2)) as (m0 & E). rewrite R in E. injection E as -> ->.
  destruct (C48_refines (l1 ++ l2)) as (m' & E'). exists m', (snd (plain_run ∅ (l1 ++ l2))). split; auto.
  clear. generalize (∅ : gmap K V). induction l1 as [|o l1 IH]; intros A; cbn.
  - destruct (plain_run A l2). reflexivity.
  - destruct (plain A o) as [A' r]. specialize (IH A'). destruct (plain_run A' (l1 ++ MRange :: l2)), (plain_run A' (l1 ++ l2)). cbn in *. now rewrite IH.
Qed.

Theorem C49_clear : forall (l : list (mop K V)) k m rs, run_ops empty_map (l ++ [MClear; MLoad k]) = Some (m, rs) ->
  exists rs', rs = rs' ++ [(None, false); (None, false)].
Proof.
  intros l k m rs R. destruct (C48_refines (l ++ [MClear; MLoad k])) as (m0 & E). rewrite R in E. injection E as -> ->.
  clear. generalize (∅ : gmap K V). induction l as [|o l IH]; intros A; cbn.
  - exists []. unfold found, unit_res. now rewrite lookup_empty.
  - destruct (plain A o) as [A' r]. destruct (IH A') as (rs' & E). destruct (plain_run A' (l ++ [MClear; MLoad k])). cbn in *. exists (r :: rs'). now rewrite E.
Qed.
End Map.

(** A run through promotion, deletion, expunging and re-insertion. *)
Example C48_ex : (fun r => snd <$> r) (run_ops (K:=nat) (V:=nat) empty_map
  [MStore 1 10; MLoad 1; MDelete 1; MStore 2 20; MLoadOrStore 1 11; MLoad 1; MLoadAndDelete 2; MComputeIfPresent 1 (fun _ v => v + 5);
   MComputeIfAbsent 2 (fun k => k * 7); MLoad 2; MClear; MLoad 1]) =
  Some [(None, false); (Some 10, true); (None, false); (None, false); (Some 11, false); (Some 11, true); (Some 20, true); (Some 16, true);
        (Some 14, false); (Some 14, true); (None, false); (None, false)].
Proof. vm_compute. reflexivity. Qed.
Example C49_ex : range_loop (hp (range_read (default empty_map (fst <$> run_ops (K:=nat) (V:=nat) empty_map [MStore 1 10; MLoad 1; MDelete 1; MStore 2 20; MStore 3 30]))))
  (map_to_list (rm (range_read (default empty_map (fst <$> run_ops (K:=nat) (V:=nat) empty_map [MStore 1 10; MLoad 1; MDelete 1; MStore 2 20; MStore 3 30])))))
  (fun _ _ _ => true) [] = [(3, 30); (2, 20)].
Proof. vm_compute. reflexivity. Qed.

Print Assumptions C48_refines. Print Assumptions C49_range. Print Assumptions C49_unchanged. Print Assumptions C49_clear.
