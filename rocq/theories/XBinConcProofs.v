(** * Proofs for C85 *)
From Coq Require Import ZArith List Bool Lia.
From Verif Require Import GoBase Trans XBinaryModel XBinarySpec XBytesModel XBytesProps XBinaryProps XBinConcSpec XBinConcModel.
Import ListNotations.
Open Scope Z_scope.

Notation mreach := (reachable init (step true)).

(** ** Buffers of others *)
Lemma mem_other : forall m l m' b, mreach m -> step true m l m' -> In b (live m) -> ~ touches l b ->
  In b (live m') /\ forall c, owns b c -> heap m' c = heap m c.
Proof.
  intros m l m' b R St Hb NT. split.
  - inversion St; subst; cbn [live touches] in *; try discriminate; auto;
      try (match goal with |- In _ (match ?r with Ok _ => _ | Panic => _ end) => destruct r; cbn; auto end);
      apply in_app_or in Hb; cbn in Hb; apply in_or_app; (destruct Hb as [?|[->|?]]; [auto|now elim NT|]); auto.
    right. apply in_or_app; auto.
  - destruct (in_split _ _ Hb) as (l1 & l2 & E). eapply C30_contents_stable; eauto.
    intros i v ->. now apply NT.
Qed.

Lemma at_other : forall m l m' b, mreach m -> step true m l m' -> In b (live m) -> ~ touches l b ->
  forall i, Z.of_nat i < scap b -> at_ (heap m') b i = at_ (heap m) b i.
Proof.
  intros m l m' b R St Hb NT i Hi. unfold at_. destruct (mem_other _ _ _ _ R St Hb NT) as [_ H]. rewrite H; auto.
  split; cbn; auto. lia.
Qed.

Lemma malloc_facts : forall m n b m', mreach m -> 0 < n -> step true m (LMalloc n n (Ok b)) m' ->
  live m' = b :: live m /\ slen b = n /\ scap b = n /\ ~ In b (live m).
Proof.
  intros m n b m' R Hn St.
  assert (L : live m' = b :: live m) by (inversion St; subst; cbn [live]; match goal with H : ?x = Ok _ |- _ => rewrite ?H end; reflexivity).
  destruct (C29_mallocsize m n b m') as [A B].
  - clear -R. destruct R as (tr & s0 & I & H). exists tr, s0. split; auto. induction H; econstructor; eauto. now apply step_any.
  - now apply step_any.
  - repeat split; auto. intros Hb. assert (R' : mreach m') by (eapply reach_step; eauto).
    destruct (in_split _ _ Hb) as (l1 & l2 & E). rewrite E in L.
    apply (C30_disjoint m' [] b l1 b l2 R' L (blk b, off b)); split; cbn; auto; lia.
Qed.

Lemma write_facts : forall m b i v m', step true m (LWrite b i v) m' ->
  live m' = live m /\ forall j, at_ (heap m') b j = if Z.of_nat j =? i then v mod 256 else at_ (heap m) b j.
Proof.
  intros m b i v m' St. inversion St; subst. split; auto. intros j. unfold at_. cbn [heap fst snd]. rewrite Nat.eqb_refl. cbn [andb].
  destruct (Z.eqb_spec (off b + Z.of_nat j) (off b + i)); destruct (Z.eqb_spec (Z.of_nat j) i); auto; lia.
Qed.

(** what is held now was held before, or was just allocated *)
Lemma live_back : forall m l m' b, mreach m -> step true m l m' -> In b (live m') ->
  match l with
  | LMalloc _ _ (Ok b0) => b = b0 \/ In b (live m)
  | LFree b0 => In b (live m) /\ (0 < scap b0 -> b <> b0)
  | LSplit _ _ => True
  | _ => In b (live m)
  end.
Proof.
  intros m l m' b R St Hb. destruct (own_holds _ R) as [PD _]. destruct St; try discriminate; cbn [live] in *; auto.
  - destruct r; cbn in *; [destruct Hb; auto|auto].
  - destruct r; cbn in *; [destruct Hb; auto|auto].
  - unfold regions in PD. cbn [live pool] in PD. rewrite <- app_assoc in PD. cbn [app] in PD. apply pd_middle in PD. destruct PD as [_ D]. split.
    + apply in_app_or in Hb. apply in_or_app. cbn. tauto.
    + intros Hs ->. apply (D s) with (blk s, off s); [apply in_app_or in Hb; apply in_or_app; destruct Hb; [auto|right; apply in_or_app; auto]| |];
        split; cbn; auto; lia.
  - apply in_app_or in Hb. apply in_or_app. cbn. tauto.
Qed.

Section Proofs.
Context {E : Type} (is_eof : E -> bool).
Notation sys := (sys E).
Notation bpc := (bpc E).
Notation bstep := (bstep is_eof).

Definition hsize (p : bpc) : nat :=
  match p with
  | WFill v _ _ | WOut v _ _ | WFree v _ _ => length (enc v)
  | RRead q _ | RDone q _ _ _ | RFree q _ _ _ => rsize q
  | PRead n _ _ | PFree n _ _ | PRet n _ => n
  | _ => 1
  end.

Lemma enc_pos : forall v, (0 < length (enc v))%nat.
Proof. intros [?|?|?|?]; cbn; lia. Qed.
Lemma rsize_pos : forall q, (0 < rsize q)%nat.
Proof. intros [?| | | |]; cbn; lia. Qed.

Record G (s : sys) : Prop := {
  G_reach : mreach (mem s);
  G_held : forall t b, held (gs s t) = Some b -> In b (live (mem s)) /\ slen b = Z.of_nat (hsize (gs s t)) /\ scap b = slen b;
  G_diff : forall t u b, held (gs s t) = Some b -> held (gs s u) = Some b -> t = u;
  G_pay : forall t n, gs s t = PAlloc n -> (0 < n)%nat
}.

(** goroutine t keeps the buffer it has (or has none before and after), or only drops it *)
Lemma G_keep : forall (m m' : state) (g : nat -> bpc) t p l, G (Sys m g) -> step true m l m' ->
  (forall u b, u <> t -> held (g u) = Some b -> ~ touches l b) ->
  (forall b, held p = Some b -> held (g t) = Some b /\ hsize p = hsize (g t) /\ In b (live m')) ->
  (forall n, p = PAlloc n -> (0 < n)%nat) -> G (Sys m' (upd g t p)).
Proof.
  intros m m' g t p l GI St NT HP HA. destruct GI as [R H D P]. cbn in *. constructor; cbn [mem gs].
  - eapply reach_step; eauto.
  - intros u b Hu. destruct (upd_cases g t u p) as [[-> E1]|[Nu E1]]; rewrite E1 in *.
    + destruct (HP _ Hu) as (A & B & C). rewrite B. destruct (H _ _ A) as (_ & X). auto.
    + destruct (H _ _ Hu) as (A & X). split; auto. eapply mem_other; eauto.
  - intros u w b Hu Hw. destruct (upd_cases g t u p) as [[-> E1]|[Nu E1]]; rewrite E1 in *;
      destruct (upd_cases g t w p) as [[-> E2]|[Nw E2]]; rewrite E2 in *; auto.
    + apply HP in Hu. apply (D t w b); tauto.
    + apply HP in Hw. apply (D u t b); tauto.
    + eauto.
  - intros u n. destruct (upd_cases g t u p) as [[-> E1]|[Nu E1]]; rewrite E1; eauto.
Qed.
Lemma G_pc : forall (m : state) (g : nat -> bpc) t p, G (Sys m g) ->
  (forall b, held p = Some b -> held (g t) = Some b /\ hsize p = hsize (g t)) ->
  (forall n, p = PAlloc n -> (0 < n)%nat) -> G (Sys m (upd g t p)).
Proof.
  intros m g t p GI HP HA. destruct GI as [R H D P]. cbn in *. constructor; cbn [mem gs]; auto.
  - intros u b Hu. destruct (upd_cases g t u p) as [[-> E1]|[Nu E1]]; rewrite E1 in *; auto.
    destruct (HP _ Hu) as (A & B). rewrite B. auto.
  - intros u w b Hu Hw. destruct (upd_cases g t u p) as [[-> E1]|[Nu E1]]; rewrite E1 in *;
      destruct (upd_cases g t w p) as [[-> E2]|[Nw E2]]; rewrite E2 in *; auto.
    + apply HP in Hu. apply (D t w b); tauto.
    + apply HP in Hw. apply (D u t b); tauto.
    + eauto.
  - intros u n. destruct (upd_cases g t u p) as [[-> E1]|[Nu E1]]; rewrite E1; eauto.
Qed.
Lemma G_alloc : forall (m m' : state) (g : nat -> bpc) t p n b, G (Sys m g) -> (0 < n)%nat ->
  step true m (LMalloc (Z.of_nat n) (Z.of_nat n) (Ok b)) m' -> held p = Some b -> hsize p = n ->
  (forall k, p <> PAlloc k) -> G (Sys m' (upd g t p)).
Proof.
  intros m m' g t p n b GI Hn St Hp Hs HA. destruct GI as [R H D P]. cbn in *.
  destruct (malloc_facts m (Z.of_nat n) b m' R ltac:(lia) St) as (L & S1 & S2 & NI). constructor; cbn [mem gs].
  - eapply reach_step; eauto.
  - intros u c Hu. destruct (upd_cases g t u p) as [[-> E1]|[Nu E1]]; rewrite E1 in *.
    + assert (c = b) by congruence. subst c. rewrite L, Hs. cbn. split; auto. lia.
    + destruct (H _ _ Hu) as (A & X). split; auto. rewrite L. right; auto.
  - intros u w c Hu Hw. destruct (upd_cases g t u p) as [[-> E1]|[Nu E1]]; rewrite E1 in *;
      destruct (upd_cases g t w p) as [[-> E2]|[Nw E2]]; rewrite E2 in *; auto.
    + exfalso. assert (c = b) by congruence. subst c. apply NI. apply (H w); auto.
    + exfalso. assert (c = b) by congruence. subst c. apply NI. apply (H u); auto.
    + eauto.
  - intros u k. destruct (upd_cases g t u p) as [[-> E1]|[Nu E1]]; rewrite E1; eauto. intros ->. now elim (HA k).
Qed.

Lemma rnext_held : forall q v e, held (@rnext E q v e) = None.
Proof. intros q v [x|]; destruct q; cbn; auto; destruct (v =? 0); auto. Qed.

(** what a decoded uint16 is *)
Lemma at_byte : forall h b i, 0 <= at_ h b i < 256.
Proof. intros. unfold at_. apply Z.mod_pos_bound. lia. Qed.

Lemma dec16 : forall h b, Z.lor (at_ h b 1) (Z.shiftl (at_ h b 0) 8) = at_ h b 0 * 256 + at_ h b 1.
Proof. intros. rewrite lor_add by (cbn; pose proof (at_byte h b 1); lia). change (2^8) with 256. lia. Qed.
Lemma dec32 : forall h b, Z.lor (Z.lor (Z.lor (at_ h b 3) (Z.shiftl (at_ h b 2) 8)) (Z.shiftl (at_ h b 1) 16)) (Z.shiftl (at_ h b 0) 24)
  = ((at_ h b 0 * 256 + at_ h b 1) * 256 + at_ h b 2) * 256 + at_ h b 3.
Proof.
  intros. pose proof (at_byte h b 3). pose proof (at_byte h b 2). pose proof (at_byte h b 1).
  rewrite (lor_add (at_ h b 3)) by (cbn; lia). change (2^8) with 256.
  rewrite (lor_add _ (at_ h b 1)) by (cbn; lia). change (2^16) with 65536.
  rewrite (lor_add _ (at_ h b 0)) by (cbn; lia). change (2^24) with 16777216. lia.
Qed.
Lemma enc_spec : forall v, (match v with VBytes s => True | VU16 i => 0 <= i < 2^16 | VU32 i => 0 <= i < 2^32 | _ => True end) ->
  enc v = match v with VBytes s => be16 (zlen s mod 2^16) | _ => wire v end.
Proof.
  intros [b|i|i|s] H; cbn [enc wire]; auto.
  - now apply be16_bytes.
  - now apply be32_bytes.
  - cbv zeta. apply be16_bytes. apply Z.mod_pos_bound. lia.
Qed.
Lemma enc_byte : forall v j, (match v with VBytes s => True | VU16 i => 0 <= i < 2^16 | VU32 i => 0 <= i < 2^32 | _ => True end) ->
  nth j (enc v) 0 mod 256 = nth j (enc v) 0.
Proof.
  intros v j H. apply Z.mod_small. destruct v as [b|i|i|s]; cbn [enc].
  - destruct j as [|[|j]]; cbn; destruct b; lia.
  - destruct j as [|[|[|j]]]; cbn [nth]; rewrite ?byte_of; try (apply Z.mod_pos_bound); lia.
  - destruct j as [|[|[|[|[|j]]]]]; cbn [nth]; rewrite ?byte_of; try (apply Z.mod_pos_bound); lia.
  - cbv zeta. destruct j as [|[|[|j]]]; cbn [nth]; rewrite ?byte_of; try (apply Z.mod_pos_bound); lia.
Qed.

(** ** What each position means *)
Definition isread (q : req) : Prop := match q with QW _ => False | _ => True end.
Definition rres (q : req) (es : list (ev E)) (v : Z) (e : option (error E)) : Prop :=
  match q with
  | QW _ => False
  | QRBool => does is_eof QRBool es (ABool (v =? 1) e)
  | QRU32 => does is_eof QRU32 es (ANum v e)
  | _ => does is_eof QRU16 es (ANum v e) /\ 0 <= v
  end.
Definition here (h : cell -> Z) (b : slice_v) (bs : str) : Prop := forall j, (j < length bs)%nat -> at_ h b j = nth j bs 0.

Definition head (q : req) (es : list (ev E)) (n : nat) : Prop :=
  q = QRBytes /\ exists v, does is_eof QRU16 es (ANum v None) /\ v <> 0 /\ n = Z.to_nat v /\ (0 < n)%nat.

Definition pinv (h : cell -> Z) (p : bpc) (q : req) (es : list (ev E)) : Prop :=
  match p with
  | BIdle => False
  | WAlloc v => q = QW v /\ es = []
  | WFill v b i => q = QW v /\ es = [] /\ (i <= length (enc v))%nat /\ forall j, (j < i)%nat -> at_ h b j = nth j (enc v) 0
  | WOut v b acc => q = QW v /\ es = [] /\ here h b (enc v) /\ exists r, enc v = acc ++ r
  | WFree v b e => q = QW v /\ es = [Out (enc v) e]
  | WTail s => q = QW (VBytes s) /\ es = [Out (enc (VBytes s)) None]
  | RAlloc q' => q = q' /\ isread q /\ es = []
  | RRead q' b => q = q' /\ isread q /\ es = []
  | RDone q' b n e => q = q' /\ isread q /\ exists bs, es = [In_ (rsize q) bs e] /\ length bs = n /\ (n <= rsize q)%nat /\ here h b bs
  | RFree q' b v e => q = q' /\ isread q /\ rres q es v e
  | PAlloc n => head q es n
  | PRead n b k => exists es1 es2 got, es = es1 ++ es2 /\ head q es1 n /\ length got = k /\ (k < n)%nat /\ here h b got /\
      forall es3 r x, full is_eof n got es3 r x -> full is_eof n [] (es2 ++ es3) r x
  | PFree n b x => exists es1 es2 bs, es = es1 ++ es2 /\ head q es1 n /\ full is_eof n [] es2 bs (Some x)
  | PRet n b => exists es1 es2 bs, es = es1 ++ es2 /\ head q es1 n /\ full is_eof n [] es2 bs None /\ length bs = n /\ here h b bs
  | BEnd a => does is_eof q es a /\ forall b c e, a = ABytes b c e -> b = None
  end.

Lemma pinv_ext : forall h h' p q es, (forall b i, held p = Some b -> (i < hsize p)%nat -> at_ h' b i = at_ h b i) ->
  pinv h p q es -> pinv h' p q es.
Proof.
  intros h h' p q es X H. destruct p; cbn [pinv held hsize] in *; auto.
  - destruct H as (A & B & C & D). repeat split; auto. intros j Hj. rewrite X by (auto; lia). auto.
  - destruct H as (A & B & C & D). repeat split; auto. intros j Hj. rewrite X by (auto; lia). auto.
  - destruct H as (A & B & bs & C & D & F & K). repeat split; auto. exists bs. repeat split; auto.
    intros j Hj. subst q. rewrite X by (auto; lia). auto.
  - destruct H as (es1 & es2 & got & A & B & C & D & F & K). exists es1, es2, got. repeat (split; auto).
    intros j Hj. rewrite X by (auto; lia). auto.
  - destruct H as (es1 & es2 & bs & A & B & C & D & F). exists es1, es2, bs. repeat (split; auto).
    intros j Hj. rewrite X by (auto; lia). auto.
Qed.

Lemma here_bytes : forall h b bs, here h b bs -> bytes h b 0 (length bs) = bs.
Proof.
  intros h b bs H. unfold bytes. apply (nth_ext _ _ 0 0); [now rewrite map_length, seq_length|].
  intros i Hi. rewrite map_length, seq_length in Hi. rewrite nth_indep with (d' := at_ h b (0 + 0)) by now rewrite map_length, seq_length.
  rewrite map_nth, seq_nth by auto. cbn. auto.
Qed.
Lemma bytes_nth : forall h b k n j, (j < n)%nat -> nth j (bytes h b k n) 0 = at_ h b (k + j).
Proof.
  intros. unfold bytes. rewrite nth_indep with (d' := at_ h b (k + 0)) by now rewrite map_length, seq_length.
  rewrite (map_nth (fun i => at_ h b (k + i))), seq_nth by auto. reflexivity.
Qed.
Lemma bytes_len : forall h b k n, length (bytes h b k n) = n.
Proof. intros. unfold bytes. now rewrite map_length, seq_length. Qed.

(** the answer computed after Read *)
Lemma decode_ok : forall q h b n e bs, isread q -> length bs = n -> (n <= rsize q)%nat -> here h b bs ->
  rres q [In_ (rsize q) bs e] (fst (decode q h b n e)) (snd (decode q h b n e)).
Proof.
  intros q h b n e bs RQ L Hn He. unfold here in He.
  assert (U16 : rres QRU16 [In_ 2 bs e] (fst (decode QRU16 h b n e)) (snd (decode QRU16 h b n e))).
  { unfold decode, rres. destruct e as [x|]; cbn [fst snd]; [split; [constructor|lia]|].
    destruct (Nat.ltb_spec n 2); cbn [fst snd]; [split; [constructor; lia|lia]|]. rewrite dec16.
    pose proof (at_byte h b 0). pose proof (at_byte h b 1). split; [|lia].
    constructor; [lia|]. unfold num16. rewrite !He by lia. reflexivity. }
  destruct q; cbn [isread rsize] in *; try contradiction; auto; unfold decode, rres.
  - destruct e as [x|]; cbn [fst snd]; [constructor|]. destruct bs as [|x bs].
    + destruct (at_ h b 0 =? 1); constructor; congruence.
    + rewrite He by (cbn; lia). cbn [nth]. destruct (Z.eqb_spec x 1); constructor; cbn [nth]; intros _;
        destruct (Z.eqb_spec x 1); auto; congruence.
  - destruct e as [x|]; cbn [fst snd]; [constructor|].
    destruct (Nat.ltb_spec n 4); cbn [fst snd]; [constructor; lia|]. rewrite dec32.
    constructor; [lia|]. unfold num32. rewrite !He by lia. reflexivity.
Qed.

Lemma rnext_ok : forall h q es v e, isread q -> rres q es v e -> pinv h (rnext q v e) q es.
Proof.
  intros h q es v e RQ H. destruct q; cbn [isread rres rnext] in *; try contradiction.
  - cbn [pinv]. split; auto. congruence.
  - destruct H. destruct e; cbn [pinv]; split; auto; congruence.
  - destruct e; cbn [pinv]; split; auto; congruence.
  - destruct H as [H Hv]. destruct e as [x|]; cbn [pinv].
    + split; [|congruence]. eapply D_head; eauto.
    + destruct (Z.eqb_spec v 0) as [->|]; cbn [pinv]; [split; [|congruence]; now apply D_empty|].
      split; auto. exists v. repeat split; auto. lia.
Qed.

Lemma pnext_ok : forall h es1 es2 q n b got bs e, head q es1 n -> (length got < n)%nat -> here h b (got ++ bs) ->
  (length (got ++ bs) <= n)%nat ->
  (forall es3 r x, full is_eof n got es3 r x -> full is_eof n [] (es2 ++ es3) r x) ->
  pinv h (pnext is_eof n b (length (got ++ bs)) e) q ((es1 ++ es2) ++ [In_ (n - length got) bs e]).
Proof.
  intros h es1 es2 q n b got bs e Hd Hl He Hb HF. unfold pnext. destruct (Nat.leb_spec n (length (got ++ bs))).
  - cbn [pinv]. exists es1, (es2 ++ [In_ (n - length got) bs e]), (got ++ bs). rewrite <- app_assoc. repeat (split; auto); [|lia].
    apply HF. destruct e as [x|]; [apply F_last; auto; lia|]. apply F_more; auto. apply F_done. lia.
  - destruct e as [x|]; cbn [pinv].
    + exists es1, (es2 ++ [In_ (n - length got) bs (Some x)]), (got ++ bs). rewrite <- app_assoc. repeat (split; auto).
      apply HF. assert (Q : (0 <? length (got ++ bs))%nat = (0 <? zlen (got ++ bs))).
      { unfold zlen. destruct (Nat.ltb_spec 0 (length (got ++ bs))); destruct (Z.ltb_spec 0 (Z.of_nat (length (got ++ bs)))); auto; lia. }
      rewrite Q. apply F_fail; auto.
    + exists es1, (es2 ++ [In_ (n - length got) bs None]), (got ++ bs). rewrite <- app_assoc. repeat (split; auto).
      intros es3 r x H1. rewrite <- app_assoc. apply HF. cbn [app]. apply F_more; auto.
Qed.


(** ** The invariant of executions *)
Definition mine (u : nat) (l : blabel E) : Prop := match l with BCall t _ | BEv t _ | BRet t _ => t = u | _ => False end.
Definition T (tr : list (blabel E)) (h : cell -> Z) (p : bpc) (u : nat) : Prop :=
  p = BIdle \/ exists a q c, tr = a ++ BCall u q :: c /\ quiet u c /\ typed q /\ pinv h p q (events u c).

Lemma events_app : forall u (a b : list (blabel E)), events u (a ++ b) = events u a ++ events u b.
Proof. intros. unfold events. apply flat_map_app. Qed.
Lemma quiet_snoc : forall u (c : list (blabel E)) l, quiet u c -> (forall q, l <> BCall u q) -> (forall a, l <> BRet u a) -> quiet u (c ++ [l]).
Proof. intros u c l Q A B x Hx. apply in_app_or in Hx. destruct Hx as [Hx|[<-|[]]]; auto. Qed.

Lemma T_foreign : forall tr h p u l, ~ mine u l -> T tr h p u -> T (tr ++ [l]) h p u.
Proof.
  intros tr h p u l N [->|(a & q & c & -> & Q & Y & P)]; [left; auto|]. right. exists a, q, (c ++ [l]).
  rewrite <- app_assoc. split; [reflexivity|]. split; [apply quiet_snoc; auto; intros x ->; apply N; reflexivity|]. split; auto.
  rewrite events_app. assert (Z : events u [l] = []); [|now rewrite Z, app_nil_r].
  unfold events. cbn. destruct l; auto. destruct (Nat.eqb_spec t u); auto. subst. elim N. reflexivity.
Qed.
Lemma T_ext : forall tr h h' p u, (forall b i, held p = Some b -> (i < hsize p)%nat -> at_ h' b i = at_ h b i) -> T tr h p u -> T tr h' p u.
Proof.
  intros tr h h' p u X [->|(a & q & c & A & Q & Y & P)]; [left; auto|]. right. exists a, q, c. repeat (split; auto). eapply pinv_ext; eauto.
Qed.
Lemma T_tau : forall tr h h' p p' u, p <> BIdle -> T tr h p u -> (forall q es, typed q -> pinv h p q es -> pinv h' p' q es) -> T (tr ++ [BTau]) h' p' u.
Proof.
  intros tr h h' p p' u N [->|(a & q & c & A & Q & Y & P)] H; [congruence|]. apply T_foreign; [intros []|]. right. exists a, q, c. auto.
Qed.
Lemma T_ev : forall tr h p p' u x, p <> BIdle -> T tr h p u -> (forall q es, typed q -> pinv h p q es -> pinv h p' q (es ++ [x])) -> T (tr ++ [BEv u x]) h p' u.
Proof.
  intros tr h p p' u x N [->|(a & q & c & -> & Q & Y & P)] H; [congruence|]. right. exists a, q, (c ++ [BEv u x]). rewrite <- app_assoc.
  split; [reflexivity|]. split; [apply quiet_snoc; auto; discriminate|]. split; auto. rewrite events_app.
  replace (events u [BEv u x]) with [x]; [auto|]. cbn. now rewrite Nat.eqb_refl.
Qed.

Definition TI (tr : list (blabel E)) (s : sys) : Prop := G s /\ forall u, T tr (heap (mem s)) (gs s u) u.

Lemma TI_pc : forall tr m (g : nat -> bpc) t l p, TI tr (Sys m g) -> (forall u, mine u l -> u = t) ->
  (forall b, held p = Some b -> held (g t) = Some b /\ hsize p = hsize (g t)) ->
  (forall n, p = PAlloc n -> (0 < n)%nat) ->
  T (tr ++ [l]) (heap m) p t -> TI (tr ++ [l]) (Sys m (upd g t p)).
Proof.
  intros tr m g t l p [GI HT] M HP HA H. split; [now apply G_pc|]. cbn [mem gs] in *. intros u.
  destruct (upd_cases g t u p) as [[-> E1]|[Nu E1]]; rewrite E1; auto. apply T_foreign; auto.
Qed.
Lemma TI_mem : forall tr m m' (g : nat -> bpc) t l x p, TI tr (Sys m g) -> step true m l m' -> (forall u, mine u x -> u = t) ->
  (forall u b, u <> t -> held (g u) = Some b -> ~ touches l b) -> G (Sys m' (upd g t p)) ->
  T (tr ++ [x]) (heap m') p t -> TI (tr ++ [x]) (Sys m' (upd g t p)).
Proof.
  intros tr m m' g t l x p [GI HT] St M NT GI' H. split; auto. cbn [mem gs] in *. intros u.
  destruct (upd_cases g t u p) as [[-> E1]|[Nu E1]]; rewrite E1; auto. apply T_foreign; auto.
  apply (T_ext tr (heap m)); auto. intros b i Hb Hi. destruct (G_held _ GI u b Hb) as (L & S1 & S2). cbn [mem gs] in *.
  eapply at_other; eauto; [exact (G_reach _ GI)|]. lia.
Qed.
(** t touches its own buffer only *)
Lemma own_touch : forall m (g : nat -> bpc) t b l, G (Sys m g) -> held (g t) = Some b -> (forall c, touches l c -> c = b) ->
  forall u c, u <> t -> held (g u) = Some c -> ~ touches l c.
Proof. intros m g t b l GI Hb HT u c N Hc Tc. apply HT in Tc. subst c. apply N. exact (G_diff _ GI u t b Hc Hb). Qed.

Lemma write_stays : forall m b i v m' c, step true m (LWrite b i v) m' -> In c (live m) -> In c (live m').
Proof. intros m b i v m' c St H. now rewrite (proj1 (write_facts _ _ _ _ _ St)). Qed.

Lemma typed_enc : forall v, typed (QW v) -> match v with VBytes s => True | VU16 i => 0 <= i < 2^16 | VU32 i => 0 <= i < 2^32 | _ => True end.
Proof. intros [?|?|?|?]; cbn; auto. Qed.

Ltac same_buf GI Hg := let b := fresh in let Hb := fresh in
  intros b Hb; cbn in Hb; inversion Hb; subst; rewrite Hg; cbn; auto.
Ltac nomine := let U := fresh in intros ? U; exact (match U : False with end).
Ltac notpay := intros ? ?; discriminate.

Lemma TI_step : forall tr s l s', TI tr s -> bstep s l s' -> TI (tr ++ [l]) s'.
Proof.
  intros tr s l s' HTI St. pose proof HTI as [GI HT].
  destruct St; cbn [mem gs] in *;
    try (match goal with H : ?g ?t = ?p |- TI _ (Sys _ (upd ?g ?t _)) => rename H into Hg; pose proof (HT t) as Ht; rewrite Hg in Ht;
      assert (HB : held (g t) = held p) by (rewrite Hg; reflexivity); cbn [held] in HB end).
  - (* call *) apply TI_pc; auto; try (intros n ?; destruct q; discriminate); try (intros b Hb; destruct q; discriminate).
    right. exists tr, q, []. split; auto. split; [intros ? []|]. split; auto. destruct q; cbn; auto.
  - (* return *) apply TI_pc; auto; try notpay; try discriminate. left; auto.
  - (* WAlloc *) assert (GI' : G (Sys m' (upd g t (WFill v b 0)))).
    { unfold zlen in H0. apply (G_alloc m m' g t _ (length (enc v)) b); auto; try discriminate. apply enc_pos. }
    eapply TI_mem; eauto; try nomine; try (cbn; tauto).
    eapply T_tau; [|exact Ht|]; [discriminate|]. cbn [pinv]. intros q es Y (-> & ->). repeat split; auto; intros; lia.
  - (* fill *) assert (GI' : G (Sys m' (upd g t (WFill v b (S i))))).
    { eapply G_keep; eauto; [|same_buf GI Hg|notpay].
      - eapply own_touch; eauto.
      - repeat split; auto. eapply write_stays; eauto. apply (G_held _ GI t); auto. }
    eapply TI_mem; eauto; try nomine; [eapply own_touch; eauto; cbn; auto|].
    eapply T_tau; [|exact Ht|]; [discriminate|]. cbn [pinv]. intros q es Y (-> & -> & A & B). repeat split; auto; try lia.
    intros j Hj. rewrite (proj2 (write_facts _ _ _ _ _ H1)). destruct (Z.eqb_spec (Z.of_nat j) (Z.of_nat i)).
    + assert (j = i) by lia. subst j. apply enc_byte. now apply typed_enc.
    + apply B. lia.
  - (* filled *) apply TI_pc; auto; try nomine; try notpay; [same_buf GI Hg|].
    eapply T_tau; [|exact Ht|]; [discriminate|]. cbn [pinv]. intros q es Y (-> & -> & A & B). repeat split; auto. exists (enc v). auto.
  - (* byte out *) apply TI_pc; auto; try nomine; try notpay; [same_buf GI Hg|].
    eapply T_tau; [|exact Ht|]; [discriminate|]. cbn [pinv]. intros q es Y (-> & -> & A & r & B). repeat split; auto.
    destruct r as [|x r]; [rewrite B, app_nil_r in H0; lia|]. exists r. rewrite <- app_assoc. cbn [app]. rewrite B. do 2 f_equal.
    rewrite A by auto. rewrite B, app_nth2, Nat.sub_diag by lia. reflexivity.
  - (* written *) apply TI_pc; auto; try notpay; [same_buf GI Hg|].
    eapply T_ev; [|exact Ht|]; [discriminate|]. cbn [pinv]. intros q es Y (-> & -> & A & r & B). split; auto. cbn.
    assert (r = []) by (destruct r; auto; rewrite B, app_length in H0; cbn in H0; lia). subst r. rewrite app_nil_r in B. now rewrite B.
  - (* free *) set (p := match v with VBytes s => match e with None => WTail s | _ => BEnd (AW e) end | _ => BEnd (AW e) end).
    assert (PH : held p = None) by (unfold p; destruct v; auto; destruct e; auto).
    assert (GI' : G (Sys m' (upd g t p))).
    { eapply G_keep; eauto; [eapply own_touch; eauto; cbn; auto|congruence|]. unfold p. destruct v; try notpay. destruct e; notpay. }
    eapply TI_mem; eauto; try nomine; [eapply own_touch; eauto; cbn; auto|].
    eapply T_tau; [|exact Ht|]; [discriminate|]. cbn [pinv]. intros q es Y (-> & ->). pose proof (enc_spec v (typed_enc v Y)) as ES.
    unfold p. destruct v as [bb|i|i|s]; rewrite ?ES.
    + cbn [pinv]. split; [apply D_write; discriminate|discriminate].
    + cbn [pinv]. split; [apply D_write; discriminate|discriminate].
    + cbn [pinv]. split; [apply D_write; discriminate|discriminate].
    + destruct e; cbn [pinv]; [split; [apply D_bytes_fail|discriminate]|]. rewrite ES. auto.
  - (* tail *) apply TI_pc; auto; try notpay; try discriminate.
    eapply T_ev; [|exact Ht|]; [discriminate|]. cbn [pinv]. intros q es Y (-> & ->). rewrite (enc_spec (VBytes s)) by (cbn; auto).
    split; [apply D_bytes|discriminate].
  - (* RAlloc *) assert (GI' : G (Sys m' (upd g t (RRead q b)))).
    { apply (G_alloc m m' g t _ (rsize q) b); auto; try discriminate. apply rsize_pos. }
    eapply TI_mem; eauto; try nomine; try (cbn; tauto).
    eapply T_tau; [|exact Ht|]; [discriminate|]. cbn [pinv]. auto.
  - (* scratch *) assert (EG : G (Sys m' (upd g t (RRead q b)))).
    { eapply G_keep; eauto; [|same_buf GI Hg|notpay].
      - eapply own_touch; eauto.
      - repeat split; auto. eapply write_stays; eauto. apply (G_held _ GI t); auto. }
    eapply TI_mem; eauto; try nomine; [eapply own_touch; eauto; cbn; auto|].
    eapply T_tau; [|exact Ht|]; [discriminate|]. cbn [pinv]. auto.
  - (* Read returned *) apply TI_pc; auto; try notpay; [same_buf GI Hg|].
    eapply T_ev; [|exact Ht|]; [discriminate|]. cbn [pinv]. intros q' es Y (-> & RQ & ->). repeat split; auto.
    exists (bytes (heap m) b 0 n). rewrite bytes_len. repeat split; auto. intros j Hj. rewrite bytes_len in Hj. now rewrite bytes_nth.
  - (* decode *) apply TI_pc; auto; try nomine; try notpay; [same_buf GI Hg|].
    eapply T_tau; [|exact Ht|]; [discriminate|]. cbn [pinv]. intros q' es Y (-> & RQ & bs & -> & L & Hn & He). repeat split; auto.
    now apply decode_ok.
  - (* free *) assert (GI' : G (Sys m' (upd g t (rnext q v e)))).
    { eapply G_keep; eauto; [eapply own_touch; eauto; cbn; auto|rewrite rnext_held; discriminate|].
      intros n Hn. destruct Ht as [?|(a & q0 & c & _ & _ & _ & P)]; [discriminate|]. cbn [pinv] in P. destruct P as (-> & RQ & P).
      pose proof (rnext_ok (heap m) q (events t c) v e RQ P) as K. rewrite Hn in K. cbn in K. destruct K as (_ & ? & _ & _ & _ & K). auto. }
    eapply TI_mem; eauto; try nomine; [eapply own_touch; eauto; cbn; auto|].
    eapply T_tau; [|exact Ht|]; [discriminate|]. cbn [pinv]. intros q' es Y (-> & RQ & P). now apply rnext_ok.
  - (* payload alloc *) pose proof (G_pay _ GI t n Hg) as Pn. assert (GI' : G (Sys m' (upd g t (PRead n b 0)))).
    { apply (G_alloc m m' g t _ n b); auto; discriminate. }
    eapply TI_mem; eauto; try nomine; try (cbn; tauto).
    eapply T_tau; [|exact Ht|]; [discriminate|]. cbn [pinv]. intros q es Y Hd. exists es, [], []. rewrite app_nil_r. repeat (split; auto).
    intros j Hj. cbn in Hj. lia.
  - (* payload scratch *) assert (EG : G (Sys m' (upd g t (PRead n b k)))).
    { eapply G_keep; eauto; [|same_buf GI Hg|notpay].
      - eapply own_touch; eauto.
      - repeat split; auto. eapply write_stays; eauto. apply (G_held _ GI t); auto. }
    eapply TI_mem; eauto; try nomine; [eapply own_touch; eauto; cbn; auto|].
    eapply T_tau; [|exact Ht|]; [discriminate|]. cbn [pinv]. intros q es Y (es1 & es2 & got & A & B & C & D & F & K).
    exists es1, es2, got. repeat (split; auto). intros j Hj. rewrite (proj2 (write_facts _ _ _ _ _ H1)).
    destruct (Z.eqb_spec (Z.of_nat j) (Z.of_nat i)); [lia|]. auto.
  - (* payload Read returned *)
    assert (PH : forall c, held (pnext is_eof n b (k + j) e) = Some c -> c = b /\ hsize (pnext is_eof n b (k + j) e) = n).
    { unfold pnext. destruct (n <=? k + j)%nat; [|destruct e]; cbn; intros c Hc; inversion Hc; auto. }
    apply TI_pc; auto.
    + intros c Hc. apply PH in Hc. destruct Hc as (-> & ->). rewrite Hg. auto.
    + unfold pnext. destruct (n <=? k + j)%nat; [|destruct e]; notpay.
    + eapply T_ev; [|exact Ht|]; [discriminate|]. intros q es Y (es1 & es2 & got & -> & B & <- & D & F & K).
      pose proof (pnext_ok (heap m) es1 es2 q n b got (bytes (heap m) b (length got) j) e B D) as Q.
      rewrite app_length, bytes_len in Q. apply Q; auto. intros i Hi. rewrite app_length, bytes_len in Hi.
      destruct (Nat.lt_ge_cases i (length got)); [rewrite app_nth1; auto|]. rewrite app_nth2, bytes_nth by lia. f_equal. lia.
  - (* payload free *) assert (GI' : G (Sys m' (upd g t (BEnd (ABytes None [] (Some x)))))).
    { eapply G_keep; eauto; [eapply own_touch; eauto; cbn; auto|discriminate|notpay]. }
    eapply TI_mem; eauto; try nomine; [eapply own_touch; eauto; cbn; auto|].
    eapply T_tau; [|exact Ht|]; [discriminate|]. cbn [pinv]. intros q es Y (es1 & es2 & bs & -> & (-> & v & B1 & B2 & -> & B4) & F).
    split; [eapply D_payload_fail; eauto|]. intros ? ? ? [= <- _ _]. reflexivity.
  - (* payload returned *) apply TI_pc; auto; try notpay; try discriminate. left; auto.
  - (* others *) split.
    + destruct GI as [R H1 D P]. constructor; cbn [mem gs] in *; auto.
      * eapply reach_step; eauto.
      * intros t b Hb. destruct (H1 t b Hb) as (A & B). split; auto. eapply mem_other; eauto.
    + cbn [mem gs]. intros u. apply T_foreign; [intros []|]. apply (T_ext tr (heap m)); auto. intros b i Hb Hi.
      destruct (G_held _ GI u b Hb) as (L & S1 & S2). cbn [mem gs] in *. eapply at_other; eauto; [exact (G_reach _ GI)|]. lia.
Qed.

Lemma TI_exec : forall tr s, exec (@binit E) bstep tr s -> TI tr s.
Proof.
  apply exec_ind_inv; [|intros; eapply TI_step; eauto]. intros [m g] [I H]. cbn [mem gs] in *. split.
  - constructor; cbn [mem gs]; intros; rewrite ?H in *; try discriminate. now apply reach_init.
  - intros u. left. apply H.
Qed.

End Proofs.
