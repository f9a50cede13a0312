(** * C56, C57: SharedMap *)
From Coq Require Import ZArith List Bool Lia.
From stdpp Require Import gmap.
From Verif Require Import MapSeqModel MapSeqSpec MapSeqProofs SharedModel SharedSpec SharedProofs.
Open Scope Z_scope.

Section Shared.
Context {V : Type}.
Notation key := (list Z).

(** A size of 1..2^31 gives the smallest power of two shards that is at least the size, and
    then every key has a shard, whatever ran before. *)
Theorem C56_count : forall n, 1 <= n <= 2 ^ 31 -> exists m, newSharedMap (V:=V) n = Some m /\
  ceil_pow2 n (Z.of_nat (length (shards m))) /\
  forall l m' rs k, run_sops m l = Some (m', rs) -> length (shards m') = length (shards m) /\ exists s, getShard m' k = Some s.
Proof.
  intros n N. destruct (new_R (V:=V) n N) as (m & E & H & C). exists m. split; auto. split; auto.
  intros l m' rs k X. destruct (srun_ok l m ∅ H) as (m1 & Y & H1). rewrite X in Y. injection Y as <- _.
  destruct H1 as (I1 & _). split; [|destruct (shard_some m' k I1) as (s & G & _); eauto].
  clear - X. revert m rs X. 
  assert (ON : forall m k o m1 r, on_shard (V:=V) m k o = Some (m1, r) -> length (shards m1) = length (shards m)).
  { intros m k o m1 r X. unfold on_shard in X. destruct (getShard m k); [|discriminate]. cbn in X. destruct (step_op m0 o) as [[s r']|]; [|discriminate].
    cbn in X. injection X as <- _. cbn. apply insert_length. }
  assert (MS : forall d m m1, mstore (V:=V) m d = Some m1 -> length (shards m1) = length (shards m)).
  { induction d as [|[k v] d IH]; cbn; intros m m1 X; [now injection X as <-|].
    destruct (on_shard m k (MStore k v)) as [[m2 r]|] eqn:E; [|discriminate]. cbn in X. rewrite (IH _ _ X). eauto. }
  induction l as [|o l IH]; cbn; intros m rs X; [now injection X as <- _|].
  destruct (step_sop m o) as [[m1 r]|] eqn:E; [|discriminate]. cbn in X. destruct (run_sops m1 l) as [[m2 rs2]|] eqn:E2; [|discriminate].
  cbn in X. injection X as <- _. rewrite (IH _ _ E2). clear IH E2.
  destruct o; cbn in E; unfold drop_res in E;
    try (destruct (on_shard _ _ _) as [[m3 r3]|] eqn:E3; [|discriminate]; cbn in E; injection E as <- _; eapply ON; eauto).
  - destruct (mstore m data) as [m3|] eqn:E3; [|discriminate]. cbn in E. injection E as <- _. eapply MS; eauto.
  - injection E as <- _. cbn. apply map_length.
  - injection E as <- _. cbn. rewrite app_length, map_length, <- app_length, take_drop. reflexivity.
Qed.

(** The size is taken modulo 2^32 ... *)
Theorem C56_wrap : forall n, newSharedMap (V:=V) n = newSharedMap (n mod 2 ^ 32).
Proof. intros n. unfold newSharedMap, u32. now rewrite Z.mod_mod. Qed.
(** ... 0 panics ... *)
Theorem C56_zero : forall n, n mod 2 ^ 32 = 0 <-> newSharedMap (V:=V) n = None.
Proof.
  intros n. unfold newSharedMap, u32. pose proof (Z.mod_pos_bound n (2 ^ 32)).
  destruct (Z.leb_spec (n mod 2 ^ 32) 0); split; intros; try lia; try discriminate; auto.
Qed.
(** ... and above 2^31, which every int from -2^31+1 to -1 is, there is no shard at all:
    construction succeeds and every operation on a key panics. *)
Definition key_op (o : sop V) : Prop :=
  match o with SMStore d => d <> [] | SClear | SRange _ => False | _ => True end.
Theorem C56_none : forall n, 2 ^ 31 < n mod 2 ^ 32 -> exists m, newSharedMap (V:=V) n = Some m /\ shards m = [] /\
  forall o, key_op o -> step_sop m o = None.
Proof.
  intros n N. unfold newSharedMap, u32. pose proof (Z.mod_pos_bound n (2 ^ 32)).
  destruct (Z.leb_spec (n mod 2 ^ 32) 0); [lia|]. rewrite size_zero by lia. cbn. eexists. split; [reflexivity|]. split; auto.
  intros o K. destruct o; cbn in *; try easy. destruct data as [|[k v] d]; [easy|]. cbn. reflexivity.
Qed.
Lemma C56_none_ex : forall n, - 2 ^ 31 < n < 0 -> 2 ^ 31 < n mod 2 ^ 32.
Proof. intros n N. replace (n mod 2 ^ 32) with (n + 2 ^ 32); [lia|]. apply Z.mod_unique with (-1); lia. Qed.

(** The index is the documented hash, a uint32 *)
Theorem C56_hash : forall k, Forall (fun b => 0 <= b < 256) k -> 0 <= fnv32 k < 2 ^ 32.
Proof.
  intros k. unfold fnv32. assert (0 <= 2166136261 < 2 ^ 32) as H by lia. revert H. generalize 2166136261.
  induction k as [|b k IH]; intros h H F; cbn; auto. inversion_clear F as [|? ? B F']. apply IH; auto. unfold fnv_step, u32.
  set (x := (h * 16777619) mod 2 ^ 32). assert (X : 0 <= x < 2 ^ 32) by (apply Z.mod_pos_bound; lia). clearbody x.
  split; [apply Z.lxor_nonneg; split; intros; lia|].
  destruct (Z.eq_dec (Z.lxor x b) 0) as [->|NZ]; [lia|].
  assert (0 <= Z.lxor x b) by (apply Z.lxor_nonneg; split; intros; lia).
  apply Z.log2_lt_pow2; [lia|]. eapply Z.le_lt_trans; [apply Z.log2_lxor; lia|].
  apply Z.max_lub_lt.
  - destruct (Z.eq_dec x 0) as [->|]; [reflexivity|apply Z.log2_lt_pow2; lia].
  - destruct (Z.eq_dec b 0) as [->|]; [reflexivity|apply Z.log2_lt_pow2; lia].
Qed.

(** For every size in range and every sequence of operations nothing panics and every
    result is that of a single plain map. *)
Theorem C57_refines : forall n l, 1 <= n <= 2 ^ 31 -> exists m m', newSharedMap (V:=V) n = Some m /\
  run_sops m l = Some (m', snd (splain_run ∅ l)).
Proof.
  intros n l N. destruct (new_R (V:=V) n N) as (m & E & H & _). destruct (srun_ok l m ∅ H) as (m' & X & _). eauto.
Qed.

(** After any sequence of operations Range, in whatever order each shard iterates, calls f
    on distinct present bindings, goes on while f answers true, stops for good, across
    shards, at the first false, and otherwise visits every present binding; it changes no
    contents (its effect is that of the operation SRange in a run). *)
Theorem C57_range : forall n l m0 m rs f ord, 1 <= n <= 2 ^ 31 -> newSharedMap (V:=V) n = Some m0 -> run_sops m0 l = Some (m, rs) ->
  (forall i s, shards m !! i = Some s -> ord i ≡ₚ map_to_list (rm (range_read s))) ->
  exists shards' visits, range_shards (shards m) ord 0 f [] = (shards', visits) /\
    NoDup visits.*1 /\ (forall k v, (k, v) ∈ visits -> fst (splain_run ∅ l) !! k = Some v) /\
    legal_calls f [] visits /\
    ((forall k v, fst (splain_run ∅ l) !! k = Some v -> (k, v) ∈ visits) \/
     exists pre k v, visits = pre ++ [(k, v)] /\ f pre k v = false) /\
    exists j, step_sop m (SRange j) = Some (SM shards' (mask m), unit_res).
Proof.
  intros n l m0 m rs f ord N E0 X ORD. destruct (new_R (V:=V) n N) as (m1 & E & H & _). rewrite E0 in E. injection E as <-.
  destruct (srun_ok l m0 ∅ H) as (m' & Y & RR). rewrite X in Y. injection Y as <- Hrs. clear Hrs H E0 X m0 n N.
  set (A := fst (splain_run ∅ l)) in *. clearbody A. destruct RR as (I & RA).
  set (h := fun e : entry key => match getShard m e.1 with Some s => hp s e | None => ENil end).
  (* the entries iterated in shard i have live or dead entries of keys of that shard or values none *)
  assert (OI : forall i s k (e : entry key), shards m !! i = Some s -> (k, e) ∈ ord i -> e.1 = k /\ rm (range_read s) !! k = Some e).
  { intros i s k e S EO. rewrite (ORD i s S) in EO. apply elem_of_map_to_list in EO. split; auto.
    destruct (range_read_ok s (s_inv _ I _ _ S)) as (I' & _). apply (i_rm _ I' _ _ EO). }
  (* only keys with a value matter; a heap that agrees on those and is dead elsewhere *)
  set (live := fun i => List.filter (fun ke : key * entry key => match shards m !! i with Some s => match hp s ke.2 with EVal _ => true | _ => false end | None => false end) (ord i)).
  assert (LIVE : forall i s k (e : entry key), shards m !! i = Some s -> (k, e) ∈ live i -> i = Z.to_nat (index m k) /\ e.1 = k /\ (k, e) ∈ ord i /\ exists v, hp s e = EVal v /\ abs s !! k = Some v).
  { intros i s k e S EO. apply elem_of_list_In in EO. apply filter_In in EO. destruct EO as (EO & B). rewrite S in B. cbn in B.
    apply elem_of_list_In in EO. destruct (OI _ _ _ _ S EO) as (P1 & P2). destruct (hp s e) as [| |v] eqn:He; try discriminate.
    assert (AV : abs s !! k = Some v).
    { destruct (range_read_ok s (s_inv _ I _ _ S)) as (I' & A' & AM). rewrite <- A', abs_lookup. unfold find. match type of P2 with _ = ?r => match goal with |- context [rm (range_read s) !! k] => idtac end; assert (P3 : rm (range_read s) !! k = r) by exact P2 end. rewrite P3. cbn.
      assert (HH : hp (range_read s) = hp s) by (unfold range_read; destruct (am s); reflexivity). now rewrite HH, He. }
    split; [exact (s_key _ I _ _ _ _ S AV)|]. split; auto. split; auto. eauto. }
  assert (FL : forall (hs : heap key V) (o : list (key * entry key)) past, shard_calls hs o f past = shard_calls hs (List.filter (fun ke => match hs ke.2 with EVal _ => true | _ => false end) o) f past).
  { intros hs o. induction o as [|[k e] o IH]; intros past; cbn; auto. destruct (hs e) eqn:He; cbn; auto. rewrite He. destruct (f past k v); auto. }
  assert (SAME : forall l' i past, (forall j s, l' !! j = Some s -> shards m !! (i + j)%nat = Some s) -> range_shards l' ord i f past = range_shards l' live i f past).
  { induction l' as [|s l' IH]; intros i past SS; cbn; auto.
    assert (S0 : shards m !! i = Some s) by (rewrite <- (Nat.add_0_r i); apply SS; reflexivity).
    assert (HH : hp (range_read s) = hp s) by (unfold range_read; destruct (am s); reflexivity). rewrite HH.
    assert (EQ : shard_calls (hp s) (ord i) f past = shard_calls (hp s) (live i) f past).
    { rewrite FL. unfold live. rewrite S0. reflexivity. }
    rewrite EQ. destruct (shard_calls (hp s) (live i) f past) as [p b]. destruct b; auto. rewrite IH; auto.
    intros j s' J. replace (S i + j)%nat with (i + S j)%nat by lia. apply SS. exact J. }
  rewrite (SAME (shards m) 0%nat []) by auto. 
  destruct (range_shards_flat h (shards m) live 0%nat f []) as (P & j & Q).
  { intros i s k e S EO. cbn in EO. destruct (LIVE _ _ _ _ S EO) as (-> & K & _). unfold h, getShard. rewrite K. now rewrite S. }
  destruct (range_shards (shards m) live 0%nat f []) as [sh vis]. cbn in P, Q. exists sh, vis. split; auto.
  rewrite shard_calls_loop in P. set (all := concat (map live (seq 0 (length (shards m))))) in *.
  assert (ALL : forall k e, (k, e) ∈ all <-> exists i s, shards m !! i = Some s /\ (k, e) ∈ live i).
  { intros k e. unfold all. rewrite elem_of_list_In, in_concat. split.
    - intros (o & O1 & O2). apply in_map_iff in O1. destruct O1 as (i & <- & O1). apply in_seq in O1.
      assert (Z : (i < length (shards m))%nat) by lia. apply lookup_lt_is_Some in Z. destruct Z as (s & Z). exists i, s. split; auto. now apply elem_of_list_In.
    - intros (i & s & S & EO). exists (live i). split; [|now apply elem_of_list_In]. apply in_map. apply in_seq. apply lookup_lt_Some in S. lia. }
  assert (ND : NoDup all.*1).
  { assert (G : forall n a, (a + n <= length (shards m))%nat -> NoDup (concat (map live (seq a n))).*1); [|unfold all; apply G; lia].
    induction n as [|n IH]; intros a B; cbn; [apply NoDup_nil_2|]. rewrite fmap_app. apply NoDup_app.
    assert (Z : (a < length (shards m))%nat) by lia. apply lookup_lt_is_Some in Z. destruct Z as (s & S).
    split; [|split; [|apply IH; lia]].
    - unfold live. pose proof (ORD _ _ S) as PO. assert (NO : NoDup (ord a).*1) by (rewrite PO; apply NoDup_fst_map_to_list).
      clear - NO. induction (ord a) as [|[k e] o IHo]; cbn; [apply NoDup_nil_2|]. cbn in NO. apply NoDup_cons in NO. destruct NO as (N1 & N2).
      match goal with |- context [if ?b then _ else _] => destruct b end; [|auto]. cbn. apply NoDup_cons. split; auto.
      intros Y. apply N1. apply elem_of_list_fmap in Y. destruct Y as ([k' e'] & -> & Y). apply elem_of_list_fmap. exists (k', e'). split; auto.
      apply elem_of_list_In in Y. apply filter_In in Y. now apply elem_of_list_In.
    - intros k Y1 Y2. apply elem_of_list_fmap in Y1. destruct Y1 as ([k1 e1] & -> & Y1). apply elem_of_list_fmap in Y2. destruct Y2 as ([k2 e2] & K & Y2). cbn in K. subst k2.
      destruct (LIVE _ _ _ _ S Y1) as (-> & _). apply elem_of_list_In, in_concat in Y2. destruct Y2 as (o & O1 & O2). apply in_map_iff in O1.
      destruct O1 as (i & <- & O1). apply in_seq in O1. assert (Z : (i < length (shards m))%nat) by lia. apply lookup_lt_is_Some in Z. destruct Z as (s2 & S2).
      apply elem_of_list_In in O2. destruct (LIVE _ _ _ _ S2 O2) as (Z & _). cbn [fst] in *. lia. }
  assert (AB : forall k v, A !! k = Some v <-> exists e, (k, e) ∈ all /\ h e = EVal v).
  { intros k v. rewrite RA. split.
    - intros Y. destruct (getShard m k) as [s|] eqn:G; [|discriminate]. cbn in Y. pose proof G as S. unfold getShard in S.
      destruct (range_read_ok s (s_inv _ I _ _ S)) as (I' & A' & AM). 
      assert (HH : hp (range_read s) = hp s) by (unfold range_read; destruct (am s); reflexivity).
      assert (Y2 := Y). rewrite <- A', abs_lookup in Y2. unfold find in Y2. rewrite dget_none in Y2 by auto.
      destruct (rm (range_read s) !! k) as [e|] eqn:RM; [|discriminate]. cbn in Y2. rewrite HH in Y2. destruct (hp s e) eqn:He; try discriminate. injection Y2 as ->.
      assert (EO : (k, e) ∈ ord (Z.to_nat (index m k))) by (rewrite (ORD _ _ S); now apply elem_of_map_to_list).
      exists e. split.
      + apply ALL. exists (Z.to_nat (index m k)), s. split; auto. unfold live. apply elem_of_list_In, filter_In. split; [now apply elem_of_list_In|].
        rewrite S. cbn. now rewrite He.
      + unfold h. destruct (OI _ _ _ _ S EO) as (-> & _). now rewrite G.
    - intros (e & EA & HE). apply ALL in EA. destruct EA as (i & s & S & EO). destruct (LIVE _ _ _ _ S EO) as (-> & K & _ & w & W1 & W2).
      unfold getShard. rewrite S. cbn. unfold h, getShard in HE. rewrite K, S in HE. rewrite W2. congruence. }
  destruct (range_loop_calls h f all [] ND) as (new & B1 & B2 & B3 & B4 & B5); [apply NoDup_nil_2|intros k Y; now apply elem_of_nil in Y|].
  rewrite B1 in P. cbn [app] in *. subst vis. split; auto. split; [intros k v Y; apply AB; auto|]. split; auto. split.
  - destruct B5 as [B5|B5]; [left|right; exact B5]. intros k v Y. apply AB in Y. destruct Y as (e & Y1 & Y2). eauto.
  - exists j. cbn. now rewrite Q.
Qed.
End Shared.

Example C56_ex : map getShardBlockSize [1; 2; 3; 32; 33; 1000; 2 ^ 31] = [1; 2; 4; 32; 64; 1024; 2 ^ 31].
Proof. vm_compute. reflexivity. Qed.
Example C57_ex : (fun r => snd <$> r) (m ← newSharedMap (V:=nat) 3; run_sops m
  [SStore [97] 1%nat; SMStore [([98], 2%nat); ([99], 3%nat); ([97; 98], 4%nat)]; SHas [99]; SDelete [99]; SHas [99]; SLoad [97; 98];
   SLoadOrStore [97] 9%nat; SLoadOrStore [99] 9%nat; SRange 4; SLoad [99]; SClear; SHas [97]]) =
  Some [(None, false); (None, false); (None, true); (None, false); (None, false); (Some 4%nat, true); (None, false); (None, true);
        (None, false); (Some 9%nat, true); (None, false); (None, false)].
Proof. vm_compute. reflexivity. Qed.
(** Keys spread over several shards *)
Example C57_ex2 : (m ← newSharedMap (V:=nat) 4; Some (map (fun k => index m k) [[97]; [98]; [99]; [97; 98]])) = Some [2; 1; 0; 0].
Proof. vm_compute. reflexivity. Qed.

Print Assumptions C56_count. Print Assumptions C56_wrap. Print Assumptions C56_zero. Print Assumptions C56_none. Print Assumptions C56_hash.
Print Assumptions C57_refines. Print Assumptions C57_range.
