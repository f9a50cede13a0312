(** * Proofs for C111 *)
From Coq Require Import ZArith List Bool Arith Lia.
From Verif Require Import GoBase Trans XBytesModel XBytesProps SyncSpec SyncProofs BytesSyncModel.
Import ListNotations.
Open Scope Z_scope.

Notation bruns owned := (traced bs_init (bs_step owned) bs_acts).

(** ** The steps are those of XBytesModel *)
Lemma erased : forall owned s l s' E, bdoes owned s l s' E -> match l with BL _ l => step owned (erase s) l (erase s') | _ => erase s' = erase s end.
Proof.
  intros owned s l s' E H. destruct H; unfold erase; cbn [bpool bfresh bheap blive]; rewrite ?map_app; cbn [map snd]; try reflexivity.
  - replace (map snd (held_by t r l)) with (match r with Ok s' => s' :: map snd l | Panic => map snd l end) by (now destruct r). now apply SReuse.
  - replace (map snd (held_by t r l)) with (match r with Ok s' => s' :: map snd l | Panic => map snd l end) by (now destruct r). now apply SNew.
  - apply SFreeOwned.
  - now apply SFreeAny.
  - apply SDrop.
  - rewrite map_map. cbn [snd]. rewrite map_id. now apply SSplit.
  - apply SForget.
  - now apply SWrite.
Qed.
Lemma erased_run : forall owned tr T s, bruns owned tr T s -> exists s0, init s0 /\ steps (step owned) s0 (plain tr) (erase s).
Proof.
  intros owned tr T s H. induction H as [s (h & ->)|tr T s [l E] s' R (s0 & I & S) D].
  - exists (St [] 0 h []). split; [now exists h|constructor].
  - exists s0. split; auto. unfold plain. rewrite flat_map_app. unfold bs_step in D. cbn [fst snd] in D. apply erased in D. cbn [flat_map fst]. rewrite app_nil_r.
    destruct l; [eapply steps_snoc; eauto| | |]; rewrite D, app_nil_r; exact S.
Qed.
Lemma reach_erase : forall owned tr T s, bruns owned tr T s -> reachable init (step owned) (erase s).
Proof.
  intros owned tr T s H. induction H as [s (h & ->)|tr T s [l E] s' R IH D]; [apply reach_init; now exists h|].
  unfold bs_step in D. cbn [fst snd] in D. apply erased in D. destruct l; [eapply reach_step; eauto| | |]; now rewrite D.
Qed.
Definition solo (l : list (holder * slice_v)) : Prop := Forall (fun e => fst e = HBy 0) l.
Lemma map_snd_app : forall {A B} (l : list (A * B)) l1 x l2, map snd l = l1 ++ x :: l2 -> exists m1 a m2, l = m1 ++ (a, x) :: m2 /\ map snd m1 = l1 /\ map snd m2 = l2.
Proof.
  intros A B l l1. revert l. induction l1 as [|y l1 IH]; intros [|[a b] l] x l2 H; try discriminate; cbn in H; injection H as -> H.
  - now exists [], a, l.
  - destruct (IH _ _ _ H) as (m1 & a' & m2 & -> & <- & <-). now exists ((a, y) :: m1), a', m2.
Qed.
Lemma solo_app : forall a b, solo (a ++ b) <-> solo a /\ solo b. Proof. intros. apply Forall_app. Qed.
Lemma solo_mid : forall a h x b, solo (a ++ (h, x) :: b) -> h = HBy 0 /\ solo (a ++ b).
Proof. intros a h x b H. apply solo_app in H. destruct H as [Ha Hb]. inversion Hb; subst. split; [auto|]. now apply solo_app. Qed.
Ltac ms := match goal with H : map snd _ = _ ++ _ :: _ |- _ => destruct (map_snd_app _ _ _ _ H) as (m1 & k & m2 & -> & <- & <-) end.
Lemma raised_step : forall owned s l s' b, step owned s l s' -> erase b = s -> solo (blive b) -> exists b' E, bdoes owned b (BL 0 l) b' E /\ erase b' = s' /\ solo (blive b').
Proof.
  intros owned s l s' [p n f h l0] St Er So. unfold erase in Er. cbn [bpool bfresh bheap blive] in *.
  destruct St; injection Er; intros; subst.
  - ms. eexists _, _. split; [now apply BReuse|].
    unfold erase. cbn [bpool bfresh bheap blive]. split; [rewrite map_app; now destruct (malloc_reuse s size)|]. destruct (malloc_reuse s size); [constructor; auto|auto].
  - eexists _, _. split; [now apply BNew|]. unfold erase. cbn [bpool bfresh bheap blive]. split; [now destruct (malloc_new f0 size capacity)|]. destruct (malloc_new f0 size capacity); [constructor; auto|auto].
  - ms. destruct (solo_mid _ _ _ _ So) as [-> So']. eexists _, _. split; [apply BFreeOwned|].
    unfold erase. cbn [bpool bfresh bheap blive]. split; [now rewrite map_app|auto].
  - eexists _, _. split; [now apply BFreeAny|]. now split.
  - ms. eexists _, _. split; [apply BDrop|]. unfold erase. cbn [bpool bfresh bheap blive]. split; [now rewrite map_app|auto].
  - ms. destruct (solo_mid _ _ _ _ So) as [-> So']. eexists _, _. split; [now apply BSplit|].
    unfold erase. cbn [bpool bfresh bheap blive]. split; [rewrite !map_app, map_map; cbn [snd]; now rewrite map_id|]. apply solo_app in So'. apply solo_app. split; [tauto|]. apply solo_app. split; [|tauto].
    apply Forall_forall. intros e He. apply in_map_iff in He. destruct He as (q & <- & _). reflexivity.
  - ms. destruct (solo_mid _ _ _ _ So) as [-> So']. eexists _, _. split; [apply BForget|].
    unfold erase. cbn [bpool bfresh bheap blive]. split; [now rewrite map_app|auto].
  - ms. destruct (solo_mid _ _ _ _ So) as [-> So']. eexists _, _. split; [now apply BWrite|].
    unfold erase. cbn [bpool bfresh bheap blive]. split; [now rewrite map_app|auto].
Qed.
Lemma raised : forall owned s0 tr s, init s0 -> steps (step owned) s0 tr s -> exists tr' T b, bruns owned tr' T b /\ plain tr' = tr /\ erase b = s.
Proof.
  intros owned s0 tr s (h & ->) R. assert (G : exists tr' T b, bruns owned tr' T b /\ plain tr' = tr /\ erase b = s /\ solo (blive b)); [|destruct G as (tr' & T & b & H & A & B & _); eauto 6].
  remember (St [] 0 h []) as s0. induction R as [|tr s l s' R IH St]; subst.
  - exists [], [], (BS [] 0 0 h []). split; [apply tr_nil; now exists h|]. split; [auto|]. split; [auto|constructor].
  - destruct IH as (tr' & T & b & H & <- & Eb & So). destruct (raised_step _ _ _ _ _ St Eb So) as (b' & E & D & Eb' & So').
    exists (tr' ++ [(BL 0 l, E)]), (T ++ E), b'. split; [exact (tr_snoc _ _ _ _ _ _ (BL 0 l, E) _ H D)|]. split; [|auto]. unfold plain. rewrite flat_map_app. reflexivity.
Qed.

(** ** Who has seen the accesses to a byte *)
Definition sees (T : list bev) (h : holder) (i : nat) : Prop := match h with HBy t => seen T i t | HWay k => past T (ASend k) i end.
Lemma sees_app : forall T E h i, sees T h i -> sees (T ++ E) h i.
Proof. intros T E [t|k] i H; [now apply seen_app|now apply past_app]. Qed.
Record V (T : list bev) (s : bst) : Prop := {
  v_byte : forall i u a c, nth_error T i = Some (u, a) -> touches a (PByte c) -> (fst c < bfresh s)%nat /\
    (forall h x, In (h, x) (blive s) -> owns x c -> sees T h i) /\ (forall k e, In (k, e) (bpool s) -> owns (snd e) c -> past T (ASend k) i);
  v_var : forall i u a k, nth_error T i = Some (u, a) -> touches a (PVar k) -> (k < bnum s)%nat /\ (writes a (PVar k) -> forall e, In (k, e) (bpool s) -> past T (ASend k) i);
  v_num : forall k e, In (k, e) (bpool s) -> (k < bnum s)%nat;
  v_race : race_free T;
  v_new : forall j t z1 z2 r, nth_error T j = Some (t, ALab (BMalloc z1 z2 (Ok r))) ->
    forall i u a c, (i < j)%nat -> nth_error T i = Some (u, a) -> touches a (PByte c) -> owns r c -> hb T i j
}.
Ltac newev Hn := let Hl := fresh "Hl" in let m := fresh "m" in let Em := fresh "Em" in
  match type of Hn with nth_error (?T ++ ?E) ?k = _ =>
    destruct (Nat.lt_ge_cases k (length T)) as [Hl|Hl];
    [rewrite nth_error_app1 in Hn by exact Hl
    |rewrite nth_error_app2 in Hn by exact Hl; remember (k - length T)%nat as m eqn:Em; destruct m as [|[|[|[|m]]]]; cbn [nth_error app] in Hn; try discriminate; try (destruct m; discriminate); injection Hn; clear Hn; intros; subst]
  end.
Ltac notouch H := unfold touches, reads, writes in H; (repeat match type of H with _ \/ _ => destruct H as [H|H] end); try discriminate H.
Lemma in_mid : forall {A} (l1 : list A) x l2, In x (l1 ++ x :: l2). Proof. intros. apply in_or_app. right. now left. Qed.
Lemma in_around : forall {A} (l1 : list A) x l2 y, In y (l1 ++ l2) -> In y (l1 ++ x :: l2).
Proof. intros A l1 x l2 y H. apply in_app_or in H. apply in_or_app. cbn. tauto. Qed.
Lemma in_repl : forall {A} (l1 : list A) x y l2 z, In z (l1 ++ x :: l2) -> z = x \/ In z (l1 ++ y :: l2).
Proof. intros A l1 x y l2 z H. apply in_app_or in H. destruct H as [H|[H|H]]; [right; apply in_or_app; now left|now left|right; apply in_or_app; right; now right]. Qed.
(** A slice someone holds has no byte in common with any other one *)
Lemma alone : forall s l1 h x l2, reachable init (step true) (erase s) -> blive s = l1 ++ (h, x) :: l2 ->
  (forall h' y, In (h', y) (l1 ++ l2) -> disjoint x y) /\ (forall k e, In (k, e) (bpool s) -> disjoint x (snd e)) /\ (blk x < bfresh s)%nat /\ 0 <= slen x <= scap x.
Proof.
  intros s l1 h x l2 R E. destruct (own_holds _ R) as [PD BL]. destruct (shape_holds _ _ R) as [_ IL]. unfold regions, erase in *. cbn [live pool fresh] in *. rewrite E, map_app in *. cbn [map snd] in *.
  rewrite <- app_assoc in PD. cbn [app] in PD. apply pd_middle in PD. destruct PD as [_ D]. repeat split.
  - intros h' y Hy. apply D. apply (in_map snd) in Hy. rewrite map_app in Hy. cbn [snd] in Hy. rewrite app_assoc. apply in_or_app. now left.
  - intros k e He. apply D. rewrite app_assoc. apply in_or_app. right. apply in_map_iff. exists e. split; auto. apply in_map_iff. now exists (k, e).
  - apply BL. rewrite <- app_assoc. cbn [app]. apply in_mid.
  - apply IL, in_mid.
  - apply IL, in_mid.
Qed.
Lemma owns_at : forall x i, 0 <= i < slen x -> 0 <= slen x <= scap x -> owns x (cell_at x i).
Proof. intros x i H1 H2. split; cbn; [auto|lia]. Qed.

Lemma cut1 : forall T (a b c : bev), T ++ [a; b; c] = ((T ++ [a]) ++ [b]) ++ [c]. Proof. intros. now rewrite <- !app_assoc. Qed.
Lemma cut2 : forall T (a b c : bev), T ++ [a; b; c] = (T ++ [a; b]) ++ [c]. Proof. intros. now rewrite <- !app_assoc. Qed.
Lemma cut3 : forall T (a b c : bev), T ++ [a; b; c] = (T ++ [a]) ++ [b; c]. Proof. intros. now rewrite <- !app_assoc. Qed.
Ltac qt := apply race_free_quiet; [|intros x9 Hq; notouch Hq].

Lemma V_all : forall tr T s, bruns true tr T s -> V T s.
Proof.
  apply (traced_ind_inv _ _ _ (fun _ T s => V T s)).
  - intros s (h & ->). constructor; cbn; try (intros [|?]; discriminate); try contradiction. apply race_free_nil.
  - intros tr T s [l E] s' R [Vb Vv Vn Vr Vm] St. pose proof (reach_erase _ _ _ _ R) as Re. unfold bs_step in St. cbn [fst snd] in St. unfold bs_acts. cbn [snd].
    assert (Ob : forall i u a c, nth_error T i = Some (u, a) -> touches a (PByte c) -> (fst c < bfresh s)%nat /\
      (forall h x, In (h, x) (blive s) -> owns x c -> sees (T ++ E) h i) /\ (forall k e, In (k, e) (bpool s) -> owns (snd e) c -> past (T ++ E) (ASend k) i)).
    { intros i u a c Hi Ht. destruct (Vb _ _ _ _ Hi Ht) as (A & B & C). split; auto. split; intros; [apply sees_app; eauto|apply past_app; eauto]. }
    assert (Ov : forall i u a k, nth_error T i = Some (u, a) -> touches a (PVar k) -> (k < bnum s)%nat /\ (writes a (PVar k) -> forall e, In (k, e) (bpool s) -> past (T ++ E) (ASend k) i)).
    { intros i u a k Hi Ht. destruct (Vv _ _ _ _ Hi Ht) as (A & B). split; auto. intros; apply past_app; eauto. }
    assert (Om : forall j t z1 z2 r, nth_error T j = Some (t, ALab (BMalloc z1 z2 (Ok r))) -> forall i u a c, (i < j)%nat -> nth_error (T ++ E) i = Some (u, a) -> touches a (PByte c) -> owns r c -> hb (T ++ E) i j).
    { intros j t z1 z2 r Hj i u a c L Hi Ht Ho. pose proof (nth_lt _ _ _ Hj). rewrite nth_error_app1 in Hi by lia. apply hb_app. eauto. }
    destruct St; cbn [bpool bnum bfresh bheap blive] in *; try discriminate; constructor; cbn [bpool bnum bfresh bheap blive]; rewrite ?app_nil_r in *; auto.
    all: try solve [intros j9 t9 z1 z2 r9 Hj i9 u9 a9 c9 L9 Hi9 Ht9 Ho9; newev Hj; eauto].
    all: try solve [intros i9 u9 a9 k9 Hi9 Ht9; newev Hi9; [|notouch Ht9]; eauto].
    all: try solve [intros k9 e9 Hin; eapply Vn, in_around, Hin].
    all: try solve [intros k9 e9 Hin; specialize (Vn _ _ Hin); lia].
    all: try solve [intros k9 e9 [Hin|Hin]; [injection Hin as <- _; lia|specialize (Vn _ _ Hin); lia]].
    + intros i u a c Hi Ht. newev Hi; [|notouch Ht..]. destruct (Ob _ _ _ _ Hi Ht) as (A & B & C). split; [exact A|]. split.
      * intros h0 x Hin Ho. destruct r as [s1|]; cbn [held_by] in Hin; [|eauto]. destruct Hin as [Hin|Hin]; [|eauto]. injection Hin as <- <-.
        apply reslice_ok in H. destruct H as (_ & E1 & E2 & _ & E4). destruct (Vb _ _ _ _ Hi Ht) as (_ & _ & C').
        rewrite cut3. apply seen_app. eapply past_seen; [apply (C' k _ (in_mid p1 _ p2)); exact (owns_same _ _ E1 E2 E4 _ Ho)|constructor].
      * intros k0 e Hin Ho. eapply C; [apply in_around; exact Hin|exact Ho].
    + intros i u a k0 Hi Ht. newev Hi; [|notouch Ht..].
      * destruct (Ov _ _ _ _ Hi Ht) as (A & B). split; [exact A|]. intros W e Hin. eapply B; [exact W|apply in_around; exact Hin].
      * injection Ht as <-. split; [exact (Vn _ _ (in_mid p1 _ p2))|]. intros W. notouch W.
    + rewrite cut1. qt. apply race_free_snoc; [qt; exact Vr|]. intros i u b x Hi Hu Hb Ha Hw _. newev Hi; [|notouch Hb].
      notouch Ha. injection Ha as <-. destruct Hw as [Hw|Hw]; [|notouch Hw]. destruct (Vv _ _ _ _ Hi Hb) as (_ & B). eapply past_seen; [apply (B Hw _ (in_mid p1 _ p2))|constructor].
    + intros j t0 z1 z2 r0 Hj i u a c L Hi Ht Ho. newev Hj; [eauto|]. newev Hi; [|notouch Ht..]. 
      match goal with Er : malloc_reuse s _ = _ |- _ => apply reslice_ok in Er; destruct Er as (_ & E1 & E2 & _ & E4) end. destruct (Vb _ _ _ _ Hi Ht) as (_ & _ & C').
      match goal with |- hb (T ++ [?e1; ?e2; ?e3]) _ _ => replace (T ++ [e1; e2; e3]) with ((T ++ [e1; e2]) ++ [e3]) by (now rewrite <- app_assoc); replace j with (length (T ++ [e1; e2])) by (rewrite app_length; cbn; lia); apply seen_next;
        replace (T ++ [e1; e2]) with ((T ++ [e1]) ++ [e2]) by (now rewrite <- app_assoc) end.
      apply seen_app. eapply past_seen; [apply (C' k _ (in_mid p1 _ p2)); exact (owns_same _ _ E1 E2 E4 _ Ho)|constructor].
    (* a new block *)
    + intros i u a c Hi Ht. assert (Hi' : nth_error T i = Some (u, a)) by (unfold var_new in Hi; destruct (malloc_key size capacity <? 0); newev Hi; auto; notouch Ht).
      destruct (Ob _ _ _ _ Hi' Ht) as (A & B & C). split; [lia|]. split; [|exact C]. intros h0 x Hin Ho. destruct r as [s1|]; cbn [held_by] in Hin; [|eauto]. destruct Hin as [Hin|Hin]; [|eauto]. injection Hin as <- <-.
      exfalso. apply malloc_new_ok in H. destruct H as (_ & E1 & _). destruct Ho as [Ho _]. lia.
    + intros i u a k Hi Ht. unfold var_new in *. destruct (malloc_key size capacity <? 0); (newev Hi; [destruct (Ov _ _ _ _ Hi Ht) as (A & B); split; [lia|exact B]|notouch Ht..]);
        injection Ht as <-; (split; [lia|]); intros W e Hin; specialize (Vn _ _ Hin); lia.
    + unfold var_new. destruct (malloc_key size capacity <? 0); cbn [app]; [qt; exact Vr|]. rewrite cut1. qt. apply race_free_snoc; [apply race_free_snoc; [exact Vr|]|].
      * intros i u b x Hi Hu Hb Ha _ _. notouch Ha. injection Ha as <-. destruct (Vv _ _ _ _ Hi Hb). lia.
      * intros i u b x Hi Hu Hb Ha _ _. notouch Ha. injection Ha as <-. newev Hi; [destruct (Vv _ _ _ _ Hi Hb); lia|congruence].
    + intros j t0 z1 z2 r0 Hj i u a c L Hi Ht Ho. assert (Hi' : nth_error T i = Some (u, a)) by (unfold var_new in Hi; destruct (malloc_key size capacity <? 0); newev Hi; auto; notouch Ht).
      assert (D : nth_error T j = Some (t0, ALab (BMalloc z1 z2 (Ok r0))) \/ r = Ok r0) by (unfold var_new in Hj; destruct (malloc_key size capacity <? 0); newev Hj; auto).
      destruct D as [Hj'| ->]; [eauto|]. exfalso. apply malloc_new_ok in H. destruct H as (_ & E1 & _). destruct Ho as [Ho _]. destruct (Vb _ _ _ _ Hi' Ht). lia.
    (* Free *)
    + intros i u a c Hi Ht. newev Hi; [|notouch Ht..]. destruct (Ob _ _ _ _ Hi Ht) as (A & B & C). split; [exact A|]. split; [intros h0 x Hin; apply B, in_around, Hin|].
      intros k e [Hin|Hin] Ho; [|eauto]. injection Hin as <- <-. cbn [free_entry snd] in Ho. destruct (Vb _ _ _ _ Hi Ht) as (_ & B' & _).
      rewrite cut2. apply seen_past, seen_app. apply (B' (HBy t) s (in_mid l1 _ l2)). exact Ho.
    + intros i u a k Hi Ht. newev Hi; [destruct (Ov _ _ _ _ Hi Ht) as (A & B); split; [lia|]|notouch Ht..].
      * intros W e [Hin|Hin]; [|eauto]. injection Hin as <- _. lia.
      * injection Ht as <-. split; [lia|]. intros _ e _. rewrite cut2. apply seen_past. exists (S (length T)), (AWr (PVar n)).
        split; [rewrite nth_error_app2 by lia; replace (S (length T) - length T)%nat with 1%nat by lia; reflexivity|left; lia].
    + rewrite cut1. qt. apply race_free_snoc; [qt; exact Vr|]. intros i u b x Hi Hu Hb Ha _ _. notouch Ha. injection Ha as <-. newev Hi; [destruct (Vv _ _ _ _ Hi Hb); lia|notouch Hb].
    (* the pool loses an element; callers *)
    + intros i u a c Hi Ht. destruct (Ob _ _ _ _ Hi Ht) as (A & B & C). split; [exact A|]. split; [exact B|]. intros k e0 Hin. apply C, in_around, Hin.
    + intros i u a k Hi Ht. destruct (Ov _ _ _ _ Hi Ht) as (A & B). split; [exact A|]. intros W e0 Hin. apply (B W e0), in_around, Hin.
    + intros i u a c Hi Ht. destruct (Ob _ _ _ _ Hi Ht) as (A & B & C). split; [exact A|]. split; [|exact C]. intros h0 x Hin Ho. apply in_app_or in Hin. rewrite in_app_iff in Hin.
      destruct Hin as [Hin|[Hin|Hin]]; [apply (B h0 x); auto; apply in_or_app; now left| |apply (B h0 x); auto; apply in_or_app; right; now right].
      apply in_map_iff in Hin. destruct Hin as (q & Eq & Hq). injection Eq as <- <-. apply (B (HBy t) s (in_mid l1 _ l2)).
      match goal with F : Forall _ parts |- _ => rewrite Forall_forall in F; destruct (F _ Hq) as (Q1 & Q2 & Q3 & Q4) end. destruct Ho as [O1 O2]. split; [congruence|lia].
    + intros i u a c Hi Ht. destruct (Ob _ _ _ _ Hi Ht) as (A & B & C). split; [exact A|]. split; [|exact C]. intros h0 x Hin. apply B, in_around, Hin.
    + destruct (alone _ _ _ _ _ Re eq_refl) as (D1 & D2 & D3 & D4). cbn [bpool bfresh] in D2, D3. intros i0 u a c Hi Ht. newev Hi.
      * destruct (Ob _ _ _ _ Hi Ht) as (A & B & C). auto.
      * notouch Ht. injection Ht as <-. match goal with Hl : (length T <= i0)%nat |- _ => replace i0 with (length T) by lia end. pose proof (owns_at _ _ H D4) as Ow. split; [cbn; exact D3|]. split.
        -- intros h0 x Hin Ho. apply in_app_or in Hin. destruct Hin as [Hin|[Hin|Hin]]; [exfalso; eapply D1; [apply in_or_app; left; exact Hin|exact Ow|exact Ho]| |exfalso; eapply D1; [apply in_or_app; right; exact Hin|exact Ow|exact Ho]].
           injection Hin as <- <-. apply seen_here.
        -- intros k e Hin Ho. exfalso. eapply D2; eauto.
    + destruct (alone _ _ _ _ _ Re eq_refl) as (_ & _ & _ & D4). apply race_free_snoc; [exact Vr|]. intros i0 u b x Hi Hu Hb Ha _ _. notouch Ha. injection Ha as <-.
      destruct (Vb _ _ _ _ Hi Hb) as (_ & B & _). exact (B (HBy t) s (in_mid l1 _ l2) (owns_at _ _ H D4)).
    + destruct (alone _ _ _ _ _ Re eq_refl) as (D1 & D2 & D3 & D4). cbn [bpool bfresh] in D2, D3. intros i0 u a c Hi Ht. newev Hi.
      * destruct (Ob _ _ _ _ Hi Ht) as (A & B & C). auto.
      * notouch Ht. injection Ht as <-. match goal with Hl : (length T <= i0)%nat |- _ => replace i0 with (length T) by lia end. pose proof (owns_at _ _ H D4) as Ow. split; [cbn; exact D3|]. split.
        -- intros h0 x Hin Ho. apply in_app_or in Hin. destruct Hin as [Hin|[Hin|Hin]]; [exfalso; eapply D1; [apply in_or_app; left; exact Hin|exact Ow|exact Ho]| |exfalso; eapply D1; [apply in_or_app; right; exact Hin|exact Ow|exact Ho]].
           injection Hin as <- <-. apply seen_here.
        -- intros k e Hin Ho. exfalso. eapply D2; eauto.
    + destruct (alone _ _ _ _ _ Re eq_refl) as (_ & _ & _ & D4). apply race_free_snoc; [exact Vr|]. intros i0 u b x Hi Hu Hb Ha _ _. notouch Ha. injection Ha as <-.
      destruct (Vb _ _ _ _ Hi Hb) as (_ & B & _). exact (B (HBy t) s (in_mid l1 _ l2) (owns_at _ _ H D4)).
    (* handing over *)
    + intros i u a c Hi Ht. newev Hi; [|notouch Ht]. destruct (Ob _ _ _ _ Hi Ht) as (A & B & C). split; [exact A|]. split; [|exact C]. intros h0 x Hin Ho.
      destruct (in_repl _ _ (HBy t, s) _ _ Hin) as [Eq|Hin']; [|eauto]. injection Eq as -> ->. destruct (Vb _ _ _ _ Hi Ht) as (_ & B' & _). apply seen_past. exact (B' (HBy t) s (in_mid l1 _ l2) Ho).
    + intros i u a k Hi Ht. newev Hi; [|notouch Ht]. destruct (Ov _ _ _ _ Hi Ht) as (A & B). split; [lia|exact B].
    + qt. exact Vr.
    + intros i u0 a c Hi Ht. newev Hi; [|notouch Ht]. destruct (Ob _ _ _ _ Hi Ht) as (A & B & C). split; [exact A|]. split; [|exact C]. intros h0 x Hin Ho.
      destruct (in_repl _ _ (HWay k, s) _ _ Hin) as [Eq|Hin']; [|eauto]. injection Eq as -> ->. destruct (Vb _ _ _ _ Hi Ht) as (_ & B' & _). eapply past_seen; [exact (B' (HWay k) s (in_mid l1 _ l2) Ho)|constructor].
    + qt. exact Vr.
Qed.
