(** * Proofs for SharedMap *)
From Coq Require Import ZArith List Bool Lia.
From stdpp Require Import gmap.
From Verif Require Import MapSeqModel MapSeqSpec MapSeqProofs SharedModel SharedSpec.
Open Scope Z_scope.

(** ** The shard count *)
Definition top (L w x : Z) : Prop := 0 <= x /\
  (forall i, L < i -> Z.testbit x i = false) /\ (forall i, 0 <= i -> L - w < i <= L -> Z.testbit x i = true).
Lemma smear_step : forall L w x, 0 < w -> top L w x -> top L (2 * w) (Z.lor x (Z.shiftr x w)).
Proof.
  intros L w x W (P & A & B). split; [apply Z.lor_nonneg; split; auto; now apply Z.shiftr_nonneg|]. split.
  - intros i I. rewrite Z.lor_spec, A by lia. destruct (Z.ltb_spec i 0) as [N|N]; [now rewrite Z.testbit_neg_r|].
    rewrite Z.shiftr_spec by lia. rewrite A by lia. reflexivity.
  - intros i I J. rewrite Z.lor_spec, Z.shiftr_spec by lia. destruct (Z.ltb_spec (L - w) i).
    + rewrite B by lia. reflexivity.
    + rewrite (B (i + w)) by lia. apply orb_true_r.
Qed.
Lemma smear_done : forall L x, 0 <= L < 32 -> top L 32 x -> x = 2 ^ (L + 1) - 1.
Proof.
  intros L x HL (P & A & B). replace (2 ^ (L + 1) - 1) with (Z.ones (L + 1)) by (rewrite Z.ones_equiv; lia).
  apply Z.bits_inj'. intros i I. rewrite Z.testbit_ones_nonneg by lia.
  destruct (Z.ltb_spec i (L + 1)); [apply B; lia|apply A; lia].
Qed.
Lemma smear : forall x, 0 < x < 2 ^ 32 ->
  let x1 := Z.lor x (Z.shiftr x 1) in let x2 := Z.lor x1 (Z.shiftr x1 2) in let x3 := Z.lor x2 (Z.shiftr x2 4) in
  let x4 := Z.lor x3 (Z.shiftr x3 8) in let x5 := Z.lor x4 (Z.shiftr x4 16) in x5 = 2 ^ (Z.log2 x + 1) - 1.
Proof.
  intros x X x1 x2 x3 x4 x5. assert (HL : 0 <= Z.log2 x < 32).
  { split; [apply Z.log2_nonneg|]. apply Z.log2_lt_pow2; lia. }
  apply smear_done; auto.
  assert (T0 : top (Z.log2 x) 1 x).
  { split; [lia|]. split.
    - intros i I. apply Z.bits_above_log2; lia.
    - intros i I J. assert (i = Z.log2 x) by lia. subst. apply Z.bit_log2. lia. }
  apply (smear_step _ 16); [lia|]. apply (smear_step _ 8); [lia|]. apply (smear_step _ 4); [lia|].
  apply (smear_step _ 2); [lia|]. apply (smear_step _ 1); [lia|]. exact T0.
Qed.

Lemma size_val : forall n, 2 <= n < 2 ^ 32 -> getShardBlockSize n = u32 (2 ^ (Z.log2 (n - 1) + 1)).
Proof.
  intros n N. unfold getShardBlockSize. assert (E : u32 (n - 1) = n - 1) by (unfold u32; apply Z.mod_small; lia). rewrite E.
  pose proof (smear (n - 1) ltac:(lia)) as S. cbv zeta in S |- *. rewrite S. f_equal. lia.
Qed.
Lemma size_ceil : forall n, 1 <= n <= 2 ^ 31 -> exists j, 0 <= j <= 31 /\ getShardBlockSize n = 2 ^ j /\ ceil_pow2 n (2 ^ j).
Proof.
  intros n N. destruct (Z.eqb_spec n 1) as [->|N1].
  - exists 0. split; [lia|]. split; [reflexivity|]. split; [exists 0; split; [lia|reflexivity]|]. split; [reflexivity|]. auto.
  - assert (L : 0 <= Z.log2 (n - 1) < 31) by (split; [apply Z.log2_nonneg|apply Z.log2_lt_pow2; lia]).
    destruct (Z.log2_spec (n - 1)) as (A & B); [lia|]. fold (Z.succ (Z.log2 (n - 1))) in *.
    exists (Z.log2 (n - 1) + 1). split; [lia|]. split.
    + rewrite size_val by lia. unfold u32. apply Z.mod_small. split; [lia|]. apply Z.pow_lt_mono_r; lia.
    + split; [eexists; split; [|reflexivity]; lia|]. unfold Z.succ in B. split; [lia|]. intros i I X. apply Z.pow_le_mono_r; [lia|].
      assert (Z.log2 (n - 1) < i); [|lia]. apply Z.log2_lt_pow2; lia.
Qed.
Lemma size_zero : forall n, 2 ^ 31 < n < 2 ^ 32 -> getShardBlockSize n = 0.
Proof.
  intros n N. rewrite size_val by lia. assert (Z.log2 (n - 1) = 31) as -> by (apply Z.log2_unique; lia). reflexivity.
Qed.

(** ** Refinement *)
Section Shared.
Context {V : Type}.
Notation key := (list Z).
Implicit Types (m : smap V) (A : gmap key V).

Record SInv m : Prop := {
  s_size : exists j, 0 <= j /\ length (shards m) = Z.to_nat (2 ^ j) /\ mask m = 2 ^ j - 1;
  s_inv : forall i s, shards m !! i = Some s -> Inv s;
  s_key : forall i s k v, shards m !! i = Some s -> abs s !! k = Some v -> i = Z.to_nat (index m k)
}.
Definition R m A : Prop := SInv m /\ forall k, A !! k = (s ← getShard m k; abs s !! k).

Lemma index_range : forall m k, SInv m -> (Z.to_nat (index m k) < length (shards m))%nat /\ 0 <= index m k.
Proof.
  intros m k I. destruct (s_size _ I) as (j & J & L & M). rewrite L. unfold index. rewrite M.
  replace (2 ^ j - 1) with (Z.ones j) by (rewrite Z.ones_equiv; lia). rewrite Z.land_ones by lia.
  assert (0 < 2 ^ j) by (apply Z.pow_pos_nonneg; lia).
  pose proof (Z.mod_pos_bound (fnv32 k) (2 ^ j)). lia.
Qed.
Lemma shard_some : forall m k, SInv m -> exists s, getShard m k = Some s /\ Inv s.
Proof.
  intros m k I. destruct (index_range m k I) as (L & _). apply lookup_lt_is_Some in L. destruct L as (s & L).
  exists s. split; [exact L|]. exact (s_inv _ I _ _ L).
Qed.

Definition key_of (o : mop key V) : option key :=
  match o with
  | MLoad k | MStore k _ | MLoadOrStore k _ | MComputeIfAbsent k _ | MComputeIfPresent k _ | MLoadAndDelete k | MDelete k => Some k
  | MClear | MRange => None
  end.
Lemma plain_local : forall o k A1 A2, key_of o = Some k -> A1 !! k = A2 !! k ->
  snd (plain A1 o) = snd (plain A2 o) /\ fst (plain A1 o) !! k = fst (plain A2 o) !! k.
Proof.
  intros o k A1 A2 K E. destruct o; cbn in K; try discriminate; injection K as ->; cbn; rewrite ?E;
    try (destruct (A2 !! k) eqn:E2; cbn); split; rewrite ?lookup_insert, ?lookup_delete; auto; try congruence.
Qed.
Lemma plain_frame : forall o k k' A, key_of o = Some k -> k' <> k -> fst (plain A o) !! k' = A !! k'.
Proof.
  intros o k k' A K N. destruct o; cbn in K; try discriminate; injection K as ->; cbn; auto;
    try (destruct (A !! k); cbn; auto); rewrite ?lookup_insert_ne, ?lookup_delete_ne by auto; auto.
Qed.

Lemma on_shard_ok : forall m A o k, R m A -> key_of o = Some k ->
  exists m', on_shard m k o = Some (m', snd (plain A o)) /\ R m' (fst (plain A o)).
Proof.
  intros m A o k (I & RA) K. destruct (shard_some m k I) as (s & G & IS). unfold on_shard. rewrite G. cbn.
  destruct (step_ok s o IS) as (s' & r & E & IS' & P). rewrite E. cbn.
  assert (EQ : A !! k = abs s !! k) by (rewrite RA, G; reflexivity).
  destruct (plain_local o k A (abs s) K EQ) as (P1 & P2). rewrite P in P1, P2. cbn in P1, P2.
  exists (setShard m k s'). split; [now rewrite P1|].
  assert (LK : forall i x, shards (setShard m k s') !! i = Some x -> (i = Z.to_nat (index m k) /\ x = s') \/ (i <> Z.to_nat (index m k) /\ shards m !! i = Some x)).
  { intros i x. cbn. destruct (index_range m k I) as (L & _). destruct (decide (i = Z.to_nat (index m k))) as [->|N].
    - rewrite list_lookup_insert by auto. intros X. injection X as ->. auto.
    - rewrite list_lookup_insert_ne by auto. auto. }
  assert (GK : forall k' s0, abs s' !! k' = Some s0 -> Z.to_nat (index m k') = Z.to_nat (index m k)).
  { intros k' v X. destruct (decide (k' = k)) as [->|N]; auto.
    pose proof (plain_frame o k k' (abs s) K N) as F. rewrite P in F. cbn in F. rewrite X in F. symmetry. symmetry in F.
    exact (s_key _ I _ _ _ _ G F). }
  split.
  - split.
    + destruct (s_size _ I) as (j & J & L & M). exists j. cbn. rewrite insert_length. auto.
    + intros i x X. apply LK in X. destruct X as [(-> & ->)|(_ & X)]; [auto|]. exact (s_inv _ I _ _ X).
    + intros i x k' v X Y. change (index (setShard m k s') k') with (index m k'). apply LK in X. destruct X as [(-> & ->)|(N & X)].
      * symmetry. eauto.
      * exact (s_key _ I _ _ _ _ X Y).
  - intros k'. unfold getShard. change (index (setShard m k s') k') with (index m k'). cbn.
    destruct (index_range m k I) as (L & _).
    destruct (decide (k' = k)) as [->|N].
    + rewrite list_lookup_insert by auto. cbn. exact P2.
    + rewrite (plain_frame o k k' A K N), RA. unfold getShard. destruct (decide (Z.to_nat (index m k') = Z.to_nat (index m k))) as [EI|NI].
      * rewrite EI, list_lookup_insert by auto. cbn. unfold getShard in G. rewrite G. cbn.
        pose proof (plain_frame o k k' (abs s) K N) as F. rewrite P in F. cbn in F. auto.
      * rewrite list_lookup_insert_ne by auto. reflexivity.
Qed.

Lemma mstore_ok : forall l m A, R m A -> exists m', mstore m l = Some m' /\ R m' (fold_left (fun A kv => <[kv.1 := kv.2]> A) l A).
Proof.
  induction l as [|[k v] l IH]; intros m A H; cbn; [eauto|].
  destruct (on_shard_ok m A (MStore k v) k H eq_refl) as (m' & E & H'). rewrite E. cbn. apply IH. exact H'.
Qed.

(** Shards may be replaced by shards with the same contents *)
Lemma R_map : forall m A l, R m A -> length l = length (shards m) ->
  (forall i s s', shards m !! i = Some s -> l !! i = Some s' -> Inv s' /\ abs s' = abs s) -> R (SM l (mask m)) A.
Proof.
  intros m A l (I & RA) L H.
  assert (B : forall i s', l !! i = Some s' -> exists s, shards m !! i = Some s /\ Inv s' /\ abs s' = abs s).
  { intros i s' X. assert (Y : (i < length (shards m))%nat) by (rewrite <- L; eapply lookup_lt_Some; eauto).
    apply lookup_lt_is_Some in Y. destruct Y as (s & Y). exists s. split; auto. eapply H; eauto. }
  split; [split|].
  - destruct (s_size _ I) as (j & J & X & Y). exists j. cbn. rewrite L. auto.
  - intros i s X. destruct (B _ _ X) as (s0 & _ & Y & _). auto.
  - intros i s k v X Y. destruct (B _ _ X) as (s0 & Z & _ & W). rewrite W in Y. exact (s_key _ I _ _ _ _ Z Y).
  - intros k. rewrite RA. destruct (shard_some m k I) as (s & G & _). rewrite G. unfold getShard in *.
    change (index (SM l (mask m)) k) with (index m k). cbn in *.
    assert (Y : (Z.to_nat (index m k) < length l)%nat) by (rewrite L; eapply lookup_lt_Some; eauto).
    apply lookup_lt_is_Some in Y. destruct Y as (s' & Y). rewrite Y. cbn. destruct (B _ _ Y) as (s0 & Z & _ & W). congruence.
Qed.

Lemma range_n_ok : forall m A n, R m A -> R (SM (map range_read (take n (shards m)) ++ drop n (shards m)) (mask m)) A.
Proof.
  intros m A n H. apply R_map; auto.
  - rewrite app_length, map_length, <- app_length, take_drop. reflexivity.
  - intros i s s' X Y. destruct H as (I & _). pose proof (s_inv _ I _ _ X) as IS. rewrite <- (take_drop n (shards m)) in X.
    change (map range_read (take n (shards m))) with (range_read <$> take n (shards m)) in Y.
    apply lookup_app_Some in Y. destruct Y as [Y|(G & Y)].
    + rewrite list_lookup_fmap in Y. destruct (take n (shards m) !! i) as [s0|] eqn:E; [|discriminate]. cbn in Y. injection Y as <-.
      rewrite lookup_app_l in X by (eapply lookup_lt_Some; eauto). rewrite E in X. injection X as ->.
      destruct (range_read_ok s IS) as (B & C & _). auto.
    + rewrite fmap_length in *. rewrite lookup_app_r in X by auto. rewrite X in Y. injection Y as ->. auto.
Qed.

Lemma abs_clear : forall s : mp key V, abs (clear s) = ∅.
Proof. intros. apply map_eq. intros k. rewrite abs_lookup. unfold find, dget. cbn. now rewrite !lookup_empty. Qed.
Lemma inv_clear : forall s : mp key V, Inv s -> Inv (clear s).
Proof.
  intros s _. split; cbn; try discriminate; intros; rewrite ?lookup_empty in *; try discriminate.
  split; auto; intros k e X; rewrite lookup_empty in X; discriminate.
Qed.

Lemma sop_ok : forall m A o, R m A -> exists m', step_sop m o = Some (m', snd (splain A o)) /\ R m' (fst (splain A o)).
Proof.
  intros m A o H. destruct o as [k v|data|k|k|k v|k f|k g|k| |n]; cbn [step_sop].
  - destruct (on_shard_ok m A (MStore k v) k H eq_refl) as (m' & -> & X). exists m'. auto.
  - destruct (mstore_ok data m A H) as (m' & -> & X). exists m'. auto.
  - destruct (on_shard_ok m A (MLoad k) k H eq_refl) as (m' & -> & X). exists m'. auto.
  - destruct (on_shard_ok m A (MLoad k) k H eq_refl) as (m' & -> & X). exists m'. auto.
  - destruct (on_shard_ok m A (MLoadOrStore k v) k H eq_refl) as (m' & -> & X). exists m'. cbn in *. destruct (A !! k); auto.
  - destruct (on_shard_ok m A (MComputeIfAbsent k f) k H eq_refl) as (m' & -> & X). exists m'. auto.
  - destruct (on_shard_ok m A (MComputeIfPresent k g) k H eq_refl) as (m' & -> & X). exists m'. auto.
  - destruct (on_shard_ok m A (MDelete k) k H eq_refl) as (m' & -> & X). exists m'. auto.
  - eexists. split; [reflexivity|]. destruct H as (I & RA).
    assert (LK : forall i s, map clear (shards m) !! i = Some s -> abs s = ∅ /\ Inv s).
    { intros i s X. change (map clear (shards m)) with (clear <$> shards m) in X. rewrite list_lookup_fmap in X.
      destruct (shards m !! i) as [s0|] eqn:E; [|discriminate]. cbn in X. injection X as <-. split; [apply abs_clear|apply inv_clear, (s_inv _ I _ _ E)]. }
    split; [split|].
    + destruct (s_size _ I) as (j & J & L & M). exists j. cbn. rewrite map_length. auto.
    + intros i s X. apply (LK _ _ X).
    + intros i s k v X Y. destruct (LK _ _ X) as (Z & _). rewrite Z, lookup_empty in Y. discriminate.
    + intros k. cbn. rewrite lookup_empty. unfold getShard. destruct (shards (SM (map clear (shards m)) (mask m)) !! _) as [s|] eqn:E; auto.
      cbn. destruct (LK _ _ E) as (-> & _). now rewrite lookup_empty.
  - eexists. split; [reflexivity|]. cbn. now apply range_n_ok.
Qed.

Lemma srun_ok : forall l m A, R m A -> exists m', run_sops m l = Some (m', snd (splain_run A l)) /\ R m' (fst (splain_run A l)).
Proof.
  induction l as [|o l IH]; intros m A H; cbn; [eauto|].
  destruct (sop_ok m A o H) as (m1 & E & H1). rewrite E. destruct (splain A o) as [A1 r]. cbn in *.
  destruct (IH m1 A1 H1) as (m2 & E2 & H2). rewrite E2. cbn. destruct (splain_run A1 l). cbn in *. eauto.
Qed.

Lemma new_R : forall n, 1 <= n <= 2 ^ 31 -> exists m, newSharedMap (V:=V) n = Some m /\ R m ∅ /\ ceil_pow2 n (Z.of_nat (length (shards m))).
Proof.
  intros n N. unfold newSharedMap. assert (E : u32 n = n) by (unfold u32; apply Z.mod_small; lia). rewrite E.
  destruct (Z.leb_spec n 0); [lia|]. destruct (size_ceil n N) as (j & J & S & C). rewrite S.
  assert (P : 0 < 2 ^ j <= 2 ^ 31) by (split; [apply Z.pow_pos_nonneg; lia|apply Z.pow_le_mono_r; lia]).
  eexists. split; [reflexivity|]. cbn [shards]. 
  assert (AE : abs (empty_map (K:=key) (V:=V)) = ∅) by (apply map_eq; intros k; rewrite abs_lookup; unfold find, dget; cbn; now rewrite !lookup_empty).
  assert (LK : forall i s, repeat (empty_map (K:=key) (V:=V)) (Z.to_nat (2 ^ j)) !! i = Some s -> s = empty_map).
  { intros i s X. apply elem_of_list_lookup_2 in X. apply elem_of_list_In, repeat_spec in X. auto. }
  split; [split; [split|]|]; cbn.
  - exists j. rewrite repeat_length. split; [lia|]. split; auto. unfold u32. apply Z.mod_small. lia.
  - intros i s X. apply LK in X. subst. apply inv_empty.
  - intros i s k v X Y. apply LK in X. subst. rewrite AE, lookup_empty in Y. discriminate.
  - intros k. rewrite lookup_empty. unfold getShard. cbn [shards]. destruct (repeat _ _ !! _) as [s|] eqn:X; auto.
    change (None = abs s !! k). rewrite (LK _ _ X), AE, lookup_empty. reflexivity.
  - rewrite repeat_length, Z2Nat.id by lia. exact C.
Qed.

(** ** Range *)
Lemma shard_calls_app : forall h l1 l2 f past,
  shard_calls h (l1 ++ l2) f past = (let '(p, b) := shard_calls (V:=V) h l1 f past in if b then shard_calls h l2 f p else (p, false)).
Proof.
  induction l1 as [|[k e] l1 IH]; intros l2 f past; cbn; auto.
  destruct (h e); auto. destruct (f past k v); auto.
Qed.
Lemma shard_calls_loop : forall h l f past, fst (shard_calls (V:=V) h l f past) = range_loop h l f past.
Proof. induction l as [|[k e] l IH]; intros f past; cbn; auto. destruct (h e); auto. destruct (f past k v); auto. Qed.
Lemma shard_calls_ext : forall h h' l f past, (forall k e, (k, e) ∈ l -> h e = h' e) -> shard_calls (V:=V) h l f past = shard_calls h' l f past.
Proof.
  induction l as [|[k e] l IH]; intros f past H; cbn; auto.
  rewrite <- (H k e) by apply elem_of_list_here.
  assert (H' : forall k e, (k, e) ∈ l -> h e = h' e) by (intros; eapply H; apply elem_of_list_further; eauto).
  destruct (h e); auto. destruct (f past k v); auto.
Qed.

Lemma range_shards_flat : forall (h : heap key V) l ord i f past,
  (forall j s k e, l !! j = Some s -> (k, e) ∈ ord (i + j)%nat -> hp s e = h e) ->
  snd (range_shards l ord i f past) = fst (shard_calls h (concat (map ord (seq i (length l)))) f past) /\
  exists n, fst (range_shards l ord i f past) = map range_read (take n l) ++ drop n l.
Proof.
  induction l as [|s l IH]; intros ord i f past H; cbn [range_shards length seq map concat].
  - split; auto. exists 0%nat. reflexivity.
  - assert (HS : forall k e, (k, e) ∈ ord i -> hp (range_read s) e = h e).
    { intros k e X. assert (E : hp (range_read s) = hp s) by (unfold range_read; destruct (am s); reflexivity). rewrite E.
      eapply (H 0%nat); [reflexivity|]. rewrite Nat.add_0_r. exact X. }
    rewrite (shard_calls_ext _ h _ f past HS), shard_calls_app.
    destruct (shard_calls h (ord i) f past) as [p b]. destruct b.
    + destruct (IH ord (S i) f p) as (A & n & B).
      { intros j s' k e X Y. apply (H (S j) s' k e X). now rewrite Nat.add_succ_r. }
      destruct (range_shards l ord (S i) f p) as [l' p']. cbn in *. split; auto. exists (S n). cbn. now rewrite B.
    + split; auto. exists 1%nat. cbn. now rewrite take_0, drop_0.
Qed.
End Shared.
