(** * Properties C26-C28 *)
From Coq Require Import ZArith List Bool Lia.
From Verif Require Import GoBase XBinaryModel XBinarySpec.
Import ListNotations.
Open Scope Z_scope.

(** ** Bits *)
Lemma land_low : forall i k, 0 <= k -> Z.land i (Z.ones k) = i mod 2^k.
Proof. intros. now apply Z.land_ones. Qed.

Lemma byte_of : forall i, Z.land i 255 = i mod 256.
Proof. intros. change 255 with (Z.ones 8). now rewrite Z.land_ones. Qed.

Lemma lor_add : forall a b k, 0 <= k -> 0 <= a < 2^k -> Z.lor a (Z.shiftl b k) = a + b * 2^k.
Proof.
  intros a b k Hk Ha. rewrite <- Z.lxor_lor.
  - rewrite <- Z.add_nocarry_lxor.
    + now rewrite Z.shiftl_mul_pow2.
    + apply Z.bits_inj'. intros n Hn. rewrite Z.land_spec, Z.bits_0.
      destruct (Z.ltb_spec n k).
      * rewrite Z.shiftl_spec_low by auto. apply andb_false_r.
      * destruct (Z.eq_dec a 0) as [->|]; [now rewrite Z.bits_0|].
        rewrite (Z.bits_above_log2 a n); auto; [lia|]. apply Z.log2_lt_pow2; [lia|].
        apply Z.lt_le_trans with (2^k); [lia|]. apply Z.pow_le_mono_r; lia.
  - apply Z.bits_inj'. intros n Hn. rewrite Z.land_spec, Z.bits_0.
    destruct (Z.ltb_spec n k).
    + rewrite Z.shiftl_spec_low by auto. apply andb_false_r.
    + destruct (Z.eq_dec a 0) as [->|]; [now rewrite Z.bits_0|].
      rewrite (Z.bits_above_log2 a n); auto; [lia|]. apply Z.log2_lt_pow2; [lia|].
      apply Z.lt_le_trans with (2^k); [lia|]. apply Z.pow_le_mono_r; lia.
Qed.

Lemma be16_bytes : forall i, 0 <= i < 2^16 -> [Z.land (Z.shiftr i 8) 255; Z.land i 255] = be16 i.
Proof.
  intros i H. unfold be16. rewrite !byte_of, Z.shiftr_div_pow2 by lia. change (2^8) with 256.
  f_equal. apply Z.mod_small. split; [apply Z.div_pos; lia|]. apply Z.div_lt_upper_bound; lia.
Qed.

Lemma be32_bytes : forall i, 0 <= i < 2^32 ->
  [Z.land (Z.shiftr i 24) 255; Z.land (Z.shiftr i 16) 255; Z.land (Z.shiftr i 8) 255; Z.land i 255] = be32 i.
Proof.
  intros i H. unfold be32. rewrite !byte_of, !Z.shiftr_div_pow2 by lia.
  f_equal. apply Z.mod_small. split; [apply Z.div_pos; lia|]. apply Z.div_lt_upper_bound; lia.
Qed.

Definition u16 (l : str) : Z := nth 0 l 0 * 256 + nth 1 l 0.
Definition u32 (l : str) : Z := ((nth 0 l 0 * 256 + nth 1 l 0) * 256 + nth 2 l 0) * 256 + nth 3 l 0.

Lemma u16_be16 : forall i t, u16 (be16 i ++ t) = i.
Proof. intros. unfold u16, be16. cbn [app nth]. rewrite (Z.div_mod i 256) at 3; lia. Qed.
Lemma u32_be32 : forall i t, u32 (be32 i ++ t) = i.
Proof.
  intros. unfold u32, be32. cbn [app nth].
  change (2^24) with (256*256*256). change (2^16) with (256*256). change (2^8) with 256.
  rewrite <- !Z.div_div by lia.
  pose proof (Z.div_mod i 256). pose proof (Z.div_mod (i/256) 256). pose proof (Z.div_mod (i/256/256) 256). lia.
Qed.

Lemma model_u16 : forall l, Forall is_byte l -> (2 <= length l)%nat ->
  Z.lor (nthb l 1) (Z.shiftl (nthb l 0) 8) = u16 l.
Proof.
  intros [|a [|b l]] F L; simpl in L; try lia. inversion F as [|? ? Ha F2]; subst. inversion F2 as [|? ? Hb F3]; subst.
  unfold nthb, u16. cbn [nth]. unfold is_byte in *. rewrite lor_add by (cbn; lia). change (2^8) with 256. lia.
Qed.

Lemma model_u32 : forall l, Forall is_byte l -> (4 <= length l)%nat ->
  Z.lor (Z.lor (Z.lor (nthb l 3) (Z.shiftl (nthb l 2) 8)) (Z.shiftl (nthb l 1) 16)) (Z.shiftl (nthb l 0) 24) = u32 l.
Proof.
  intros [|a [|b [|c [|d l]]]] F L; simpl in L; try lia.
  inversion F as [|? ? Ha F2]; subst. inversion F2 as [|? ? Hb F3]; subst.
  inversion F3 as [|? ? Hc F4]; subst. inversion F4 as [|? ? Hd F5]; subst.
  unfold nthb, u32. cbn [nth]. unfold is_byte in *.
  rewrite (lor_add d c 8) by (cbn; lia). change (2^8) with 256.
  rewrite (lor_add _ b 16) by (cbn; lia). change (2^16) with 65536.
  rewrite (lor_add _ a 24) by (cbn; lia). change (2^24) with 16777216. lia.
Qed.

(** ** C26 *)

(** Each Write call makes exactly one w.Write with the wire format (WriteBytes: two, the
    second only if the first succeeded) and returns the writer's error. *)
Theorem C26_writes : forall W E (wr : W -> str -> Z * option E * W) w,
  (forall b, WriteBool W E wr w b = do_write W E wr w (wire (VBool b))) /\
  (forall i, 0 <= i < 2^16 -> WriteUint16 W E wr w i = do_write W E wr w (wire (VU16 i))) /\
  (forall i, 0 <= i < 2^32 -> WriteUint32 W E wr w i = do_write W E wr w (wire (VU32 i))) /\
  (forall s, WriteBytes W E wr w s =
     match do_write W E wr w (be16 (zlen s mod 2^16)) with (None, w') => do_write W E wr w' s | r => r end).
Proof.
  intros. split; [reflexivity|]. split; [intros; unfold WriteUint16; now rewrite be16_bytes|].
  split; [intros; unfold WriteUint32; now rewrite be32_bytes|].
  intros s. unfold WriteBytes, WriteUint16. rewrite be16_bytes; auto. apply Z.mod_pos_bound. reflexivity.
Qed.

Definition write_value (w : str) (v : value) : option bufErr * str :=
  match v with
  | VBool b => WriteBool _ _ buf_write w b
  | VU16 i => WriteUint16 _ _ buf_write w i
  | VU32 i => WriteUint32 _ _ buf_write w i
  | VBytes s => WriteBytes _ _ buf_write w s
  end.

Lemma write_value_wire : forall w v, valid_value v \/ (exists s, v = VBytes s) -> write_value w v = (None, w ++ wire v).
Proof.
  intros w v H. destruct (C26_writes str bufErr buf_write w) as (H1 & H2 & H3 & H4).
  destruct v as [b|i|i|s]; cbn [write_value].
  - now rewrite H1.
  - rewrite H2; auto. destruct H as [H|[s H]]; [exact H|discriminate].
  - rewrite H3; auto. destruct H as [H|[s H]]; [exact H|discriminate].
  - rewrite H4. cbn [do_write buf_write]. unfold do_write, buf_write. cbn [wire]. now rewrite app_assoc.
Qed.

(** Reading a value of the same kind; the pooled buffers' old contents are arbitrary. *)
Inductive read_value (stale : str) : value -> str -> value * option (error bufErr) * str -> Prop :=
| RV_bool : forall b s r e s', ReadBool _ _ buf_read stale s = (r, e, s') -> read_value stale (VBool b) s (VBool r, e, s')
| RV_u16 : forall i s r e s', ReadUint16 _ _ buf_read stale s = (r, e, s') -> read_value stale (VU16 i) s (VU16 r, e, s')
| RV_u32 : forall i s r e s', ReadUint32 _ _ buf_read stale s = (r, e, s') -> read_value stale (VU32 i) s (VU32 r, e, s')
| RV_bytes : forall p s r e s', ReadBytes _ _ buf_read buf_eof stale s (r, e, s') -> read_value stale (VBytes p) s (VBytes r, e, s').

Lemma firstn_app_exact : forall {A} (a b : list A), firstn (length a) (a ++ b) = a.
Proof. intros. rewrite firstn_app, Nat.sub_diag, firstn_all. cbn. apply app_nil_r. Qed.
Lemma skipn_app_exact : forall {A} (a b : list A), skipn (length a) (a ++ b) = b.
Proof. intros. rewrite skipn_app, Nat.sub_diag, skipn_all. reflexivity. Qed.

Lemma buf_read_app : forall a b n, a <> [] -> zlen a = n -> buf_read (a ++ b) n = (a, None, b).
Proof.
  intros a b n Ha <-. unfold buf_read. destruct (a ++ b) eqn:E.
  - destruct a; [easy|discriminate].
  - rewrite <- E. unfold zlen. rewrite Nat2Z.id, firstn_app_exact, skipn_app_exact. reflexivity.
Qed.

Lemma be16_bytes_ok : forall i, 0 <= i < 2^16 -> Forall is_byte (be16 i).
Proof.
  intros i H. unfold be16, is_byte. repeat constructor; try (apply Z.mod_pos_bound; lia).
  - apply Z.div_pos; lia.
  - apply Z.div_lt_upper_bound; lia.
Qed.
Lemma be32_bytes_ok : forall i, 0 <= i < 2^32 -> Forall is_byte (be32 i).
Proof.
  intros i H. unfold be32, is_byte. repeat constructor; try (apply Z.mod_pos_bound; lia).
  - apply Z.div_pos; lia.
  - apply Z.div_lt_upper_bound; lia.
Qed.

Lemma forall_skipn : forall {A} (P : A -> Prop) l n, Forall P l -> Forall P (skipn n l).
Proof. intros A P l. induction l; intros [|n] F; cbn; auto. inversion F; auto. Qed.

Lemma read_u16 : forall stale i t, Forall is_byte stale -> 0 <= i < 2^16 ->
  ReadUint16 _ _ buf_read stale (be16 i ++ t) = (i, None, t).
Proof.
  intros stale i t F H. unfold ReadUint16. rewrite buf_read_app by (easy || reflexivity).
  change (zlen (be16 i) <? 2) with false. cbn iota. unfold fill.
  rewrite model_u16, u16_be16; auto.
  - apply Forall_app. split; [now apply be16_bytes_ok|]. now apply forall_skipn.
  - rewrite app_length. cbn. lia.
Qed.

Lemma read_u32 : forall stale i t, Forall is_byte stale -> 0 <= i < 2^32 ->
  ReadUint32 _ _ buf_read stale (be32 i ++ t) = (i, None, t).
Proof.
  intros stale i t F H. unfold ReadUint32. rewrite buf_read_app by (easy || reflexivity).
  change (zlen (be32 i) <? 4) with false. cbn iota. unfold fill.
  rewrite model_u32, u32_be32; auto.
  - apply Forall_app. split; [now apply be32_bytes_ok|]. now apply forall_skipn.
  - rewrite app_length. cbn. lia.
Qed.

(** ReadFull is deterministic. *)
Lemma ReadFull_det : forall S E rd is_eof need got s r1 r2,
  ReadFull S E rd is_eof need got s r1 -> ReadFull S E rd is_eof need got s r2 -> r1 = r2.
Proof.
  intros S E rd is_eof need got s r1 r2 H1. revert r2.
  induction H1; intros r2 H2; inversion H2; subst; try lia; auto;
    repeat match goal with A : rd ?s ?n = _, B : rd ?s ?n = _ |- _ => rewrite A in B; inversion B; subst; clear B end;
    auto; try lia.
Qed.

Lemma ReadBytes_det : forall S E rd is_eof stale s r1 r2,
  ReadBytes S E rd is_eof stale s r1 -> ReadBytes S E rd is_eof stale s r2 -> r1 = r2.
Proof.
  intros S E rd is_eof stale s r1 r2 H1 H2.
  destruct H1; inversion H2; subst;
    repeat match goal with A : ReadUint16 _ _ rd ?x ?y = _, B : ReadUint16 _ _ rd ?x ?y = _ |- _ => rewrite A in B; inversion B; subst; clear B end;
    auto; try easy;
    repeat match goal with A : ReadFull _ _ _ _ ?n ?g ?s ?r1, B : ReadFull _ _ _ _ ?n ?g ?s ?r2 |- _ =>
      pose proof (ReadFull_det _ _ _ _ _ _ _ _ _ A B) as HX; clear B; inversion HX; subst end; auto.
Qed.

Lemma read_bytes : forall stale p t, Forall is_byte stale -> zlen p < 2^16 ->
  ReadBytes _ _ buf_read buf_eof stale (be16 (zlen p) ++ p ++ t) (p, None, t).
Proof.
  intros stale p t F H. pose proof (zlen_nonneg p).
  assert (R := read_u16 stale (zlen p) (p ++ t) F ltac:(lia)).
  destruct p as [|b p]; [now apply RB_empty|].
  eapply RB_ok; [exact R|unfold zlen; cbn [length]; lia|].
  eapply RF_more; [unfold zlen; cbn [length]; lia| |apply RF_done; reflexivity].
  rewrite zlen_nil, Z.sub_0_r. apply buf_read_app; [easy|reflexivity].
Qed.

Lemma read_value_wire : forall stale v t, Forall is_byte stale -> valid_value v ->
  read_value stale v (wire v ++ t) (v, None, t).
Proof.
  intros stale v t F V. destruct v as [b|i|i|s]; cbn [wire].
  - apply RV_bool. unfold ReadBool. rewrite buf_read_app by (easy || reflexivity). now destruct b.
  - apply RV_u16. now apply read_u16.
  - apply RV_u32. now apply read_u32.
  - apply RV_bytes. cbn [valid_value] in V. rewrite Z.mod_small by (pose proof (zlen_nonneg s); lia).
    rewrite <- app_assoc. now apply read_bytes.
Qed.

Lemma read_value_det : forall stale v s r1 r2, read_value stale v s r1 -> read_value stale v s r2 -> r1 = r2.
Proof.
  intros stale v s r1 r2 H1 H2. destruct H1; inversion H2; subst; try congruence.
  match goal with A : ReadBytes _ _ _ _ _ _ _, B : ReadBytes _ _ _ _ _ _ _ |- _ => pose proof (ReadBytes_det _ _ _ _ _ _ _ _ A B) as X; clear B end.
  now inversion X; subst.
Qed.

(** Writing a sequence, stopping at the first error. *)
Fixpoint write_all (w : str) (vs : list value) : option bufErr * str :=
  match vs with
  | [] => (None, w)
  | v :: vs' => match write_value w v with (None, w') => write_all w' vs' | r => r end
  end.

Inductive read_all : list value -> list str -> str -> list value -> str -> Prop :=
| RA_nil : forall s, read_all [] [] s [] s
| RA_cons : forall v vs st sts s r s' rs s'', read_value st v s (r, None, s') ->
    read_all vs sts s' rs s'' -> read_all (v :: vs) (st :: sts) s (r :: rs) s''.

(** Round trip: for every sequence of values, every rest of the stream and any contents
    of the recycled buffers, all writes succeed, all reads succeed with the same values,
    and exactly the rest is left; the reads can have no other result. *)
Theorem C26_round_trip : forall vs w rest stales,
  Forall valid_value vs -> length stales = length vs -> Forall (Forall is_byte) stales ->
  write_all w vs = (None, w ++ concat (map wire vs)) /\
  read_all vs stales (concat (map wire vs) ++ rest) vs rest /\
  (forall rs rest', read_all vs stales (concat (map wire vs) ++ rest) rs rest' -> rs = vs /\ rest' = rest).
Proof.
  induction vs as [|v vs IH]; intros w rest stales V L F.
  - destruct stales; [|discriminate]. cbn. rewrite app_nil_r. repeat split; try constructor; inversion H; auto.
  - destruct stales as [|st sts]; [discriminate|]. inversion V; subst. inversion F; subst.
    destruct (IH (w ++ wire v) rest sts) as (A & B & C); auto.
    cbn [map concat]. split; [|split].
    + cbn [write_all]. rewrite write_value_wire by auto. rewrite A. now rewrite <- app_assoc.
    + rewrite <- app_assoc. econstructor; [|exact B]. now apply read_value_wire.
    + rewrite <- app_assoc. intros rs rest' H. inversion H; subst.
      match goal with A : read_value st v _ (_, None, _), B : read_all vs sts _ _ _ |- _ =>
        assert (X := read_value_det _ _ _ _ _ A (read_value_wire st v (concat (map wire vs) ++ rest) ltac:(assumption) ltac:(assumption)));
        inversion X; subst; destruct (C _ _ B) as [-> ->] end. auto.
Qed.

Example C26_ex : Forall valid_value [VBool true; VU16 258; VU32 4294967295; VBytes [1;2;3]] /\
  concat (map wire [VBool true; VU16 258; VU32 4294967295; VBytes [1;2;3]]) = [1; 1;2; 255;255;255;255; 0;3;1;2;3].
Proof. split; [repeat constructor; cbn; unfold zlen; cbn; lia|reflexivity]. Qed.

(** ** C27 *)

Theorem C27_prefix : forall w s, write_value w (VBytes s) = (None, w ++ be16 (zlen s mod 2^16) ++ s).
Proof. intros. rewrite write_value_wire; eauto. Qed.

Theorem C27_long_refuted : forall s rest stale, 2^16 <= zlen s -> Forall is_byte stale ->
  ReadBytes _ _ buf_read buf_eof stale (be16 (zlen s mod 2^16) ++ s ++ rest)
    (firstn (Z.to_nat (zlen s mod 2^16)) s, None, skipn (Z.to_nat (zlen s mod 2^16)) s ++ rest) /\
  firstn (Z.to_nat (zlen s mod 2^16)) s <> s /\ skipn (Z.to_nat (zlen s mod 2^16)) s ++ rest <> rest.
Proof.
  intros s rest stale L F. set (k := zlen s mod 2^16). assert (K : 0 <= k < 2^16) by (apply Z.mod_pos_bound; lia).
  assert (Lk : zlen (firstn (Z.to_nat k) s) = k) by (unfold zlen in *; rewrite firstn_length; lia).
  split; [|split].
  - pose proof (read_bytes stale (firstn (Z.to_nat k) s) (skipn (Z.to_nat k) s ++ rest) F ltac:(lia)) as R.
    rewrite Lk in R. rewrite (app_assoc (firstn (Z.to_nat k) s)), firstn_skipn in R. exact R.
  - intros E. rewrite E in Lk. lia.
  - intros E. apply (f_equal zlen) in E. rewrite zlen_app in E. unfold zlen in *. rewrite skipn_length in E. lia.
Qed.

Example C27_ex : 2^16 <= zlen (repeat 7 (Z.to_nat 65537)).
Proof. unfold zlen. rewrite repeat_length. lia. Qed.

(** ** C28 *)

Section AnyReader.
  Variables S E : Type.
  Variable rd : S -> Z -> str * option E * S.
  Variable is_eof : E -> bool.
  (** io.Reader contract: at most the requested number of bytes *)
  Hypothesis rd_bound : forall s n bs e s', rd s n = (bs, e, s') -> zlen bs <= Z.max 0 n /\ Forall is_byte bs.

  Theorem C28_uint16 : forall stale s, zlen stale = 2 ->
    let '(bs, err, s') := rd s 2 in
    ReadUint16 S E rd stale s =
      match err with
      | Some e => (0, Some (EIO e), s')
      | None => if zlen bs =? 2 then (u16 bs, None, s') else (0, Some EInvalidLength, s')
      end.
  Proof.
    intros stale s L. unfold ReadUint16. destruct (rd s 2) as [[bs err] s'] eqn:R.
    destruct (rd_bound _ _ _ _ _ R) as [B F]. destruct err; auto.
    destruct (Z.ltb_spec (zlen bs) 2), (Z.eqb_spec (zlen bs) 2); auto; try lia.
    unfold fill. rewrite skipn_all2 by (unfold zlen in *; lia). rewrite app_nil_r, model_u16; auto. unfold zlen in *; lia.
  Qed.

  Theorem C28_uint32 : forall stale s, zlen stale = 4 ->
    let '(bs, err, s') := rd s 4 in
    ReadUint32 S E rd stale s =
      match err with
      | Some e => (0, Some (EIO e), s')
      | None => if zlen bs =? 4 then (u32 bs, None, s') else (0, Some EInvalidLength, s')
      end.
  Proof.
    intros stale s L. unfold ReadUint32. destruct (rd s 4) as [[bs err] s'] eqn:R.
    destruct (rd_bound _ _ _ _ _ R) as [B F]. destruct err; auto.
    destruct (Z.ltb_spec (zlen bs) 4), (Z.eqb_spec (zlen bs) 4); auto; try lia.
    unfold fill. rewrite skipn_all2 by (unfold zlen in *; lia). rewrite app_nil_r, model_u32; auto. unfold zlen in *; lia.
  Qed.

  (** ReadBool: with no byte delivered and no error, the answer is the recycled buffer's. *)
  Theorem C28_bool : forall old s,
    let '(bs, err, s') := rd s 1 in
    ReadBool S E rd [old] s =
      match err with
      | Some e => (false, Some (EIO e), s')
      | None => (match bs with [] => old =? 1 | b :: _ => b =? 1 end, None, s')
      end.
  Proof.
    intros old s. unfold ReadBool. destruct (rd s 1) as [[bs err] s'] eqn:R. destruct err; auto.
    unfold fill, nthb. destruct bs; reflexivity.
  Qed.

  (** ReadBytes never returns data together with an error, and never returns data of a
      length other than announced. *)
  Theorem C28_bytes_safe : forall stale s bs e s', zlen stale = 2 ->
    ReadBytes S E rd is_eof stale s (bs, e, s') ->
    (e <> None -> bs = []) /\
    (e = None -> exists hdr s1, rd s 2 = (hdr, None, s1) /\ zlen hdr = 2 /\ zlen bs = u16 hdr).
  Proof.
    assert (FullLen : forall need got s r, ReadFull S E rd is_eof need got s r -> zlen got <= need -> 
       forall bs s', r = (bs, None, s') -> zlen bs = need).
    { intros need got s r H. induction H; intros G bs0 s0 Eq; inversion Eq; subst; try lia.
      - eapply IHReadFull; eauto. destruct (rd_bound _ _ _ _ _ H0). rewrite zlen_app. lia.
      - destruct (rd_bound _ _ _ _ _ H0). rewrite zlen_app in *. lia. }
    intros stale s bs e s' L H. pose proof (C28_uint16 stale s L) as U. destruct (rd s 2) as [[hdr err] s1] eqn:R.
    destruct (rd_bound _ _ _ _ _ R) as [B F].
    assert (P : forall v s2, ReadUint16 S E rd stale s = (v, None, s2) -> err = None /\ zlen hdr = 2 /\ v = u16 hdr).
    { intros v s2 Hv. rewrite U in Hv. destruct err; [discriminate|]. destruct (zlen hdr =? 2) eqn:Z2; [|discriminate].
      apply Z.eqb_eq in Z2. inversion Hv; auto. }
    assert (Pos : 0 <= u16 hdr).
    { unfold u16. destruct hdr as [|x [|y hdr]]; cbn [nth]; try lia.
      - inversion F as [|? ? Fx F2]; subst. unfold is_byte in *. lia.
      - inversion F as [|? ? Fx F2]; subst. inversion F2 as [|? ? Fy F3]; subst. unfold is_byte in *. lia. }
    inversion H; subst; split; intros He; try contradiction; try discriminate; auto.
    - match goal with A : ReadUint16 _ _ _ _ _ = (_, None, _) |- _ => destruct (P _ _ A) as (-> & A1 & A2) end. eauto.
    - match goal with A : ReadUint16 _ _ _ _ _ = (_, None, _) |- _ => destruct (P _ _ A) as (-> & A1 & ->) end.
      exists hdr, s1. split; auto. split; auto.
      match goal with A : ReadFull _ _ _ _ _ _ _ _ |- _ => eapply (FullLen _ _ _ _ A); [exact Pos|reflexivity] end.
  Qed.

  (** What ReadBytes returns, for every reader, in terms of the reader's answers: it asks for
      two bytes and then for the rest.  An error with the length, or a short length, ends it.
      Otherwise it asks until it has as many bytes as announced or an answer carries an error;
      the payload is exactly the bytes delivered, in order.  An error that comes with the last
      needed byte is forgotten. *)
  Theorem C28_bytes_exact : forall stale s bs e s', zlen stale = 2 ->
    ReadBytes S E rd is_eof stale s (bs, e, s') ->
    exists hdr herr s1 reqs ans, rd s 2 = (hdr, herr, s1) /\ ask_all rd s1 reqs = (ans, s') /\
        match herr with
      | Some x => reqs = [] /\ bs = [] /\ e = Some (EIO x)
      | None =>
          if zlen hdr =? 2 then
            clean_before_last ans /\
        (zlen (bytes_of ans) = u16 hdr /\ bs = bytes_of ans /\ e = None \/
             zlen (bytes_of ans) < u16 hdr /\ bs = [] /\ exists x, last_error ans = Some x /\
        e = Some (if is_eof x && negb (zlen (bytes_of ans) =? 0) then EUnexpectedEOF else EIO x))
          else reqs = [] /\ bs = [] /\ e = Some EInvalidLength
      end.
  Proof.
    assert (Full : forall need got s r, ReadFull S E rd is_eof need got s r -> zlen got <= need ->
      exists reqs ans s', ask_all rd s reqs = (ans, s') /\ clean_before_last ans /\
        let all := got ++ bytes_of ans in
        (zlen all = need /\ r = (all, None, s') \/
         zlen all < need /\ exists x, last_error ans = Some x /\
        r = (all, Some (if is_eof x && negb (zlen all =? 0) then EUnexpectedEOF else EIO x), s'))).
    { intros need got s r H. induction H as [got s D|got s bs s' r Lt R H IH|got s bs e s' Lt R D|got s bs e s' Lt R D]; intros G.
      - exists [], [], s. split; [reflexivity|]. split; [constructor|]. cbn [bytes_of map concat]. rewrite app_nil_r. left. split; auto. lia.
      - destruct (rd_bound _ _ _ _ _ R) as [B _]. destruct IH as (reqs & ans & s2 & A & C & Q). { rewrite zlen_app. lia. }
        exists ((need - zlen got) :: reqs), ((bs, None) :: ans), s2. split; [cbn; now rewrite R, A|].
        assert (EB : got ++ bytes_of ((bs, None) :: ans) = (got ++ bs) ++ bytes_of ans) by (unfold bytes_of; cbn; now rewrite app_assoc).
        split.
        { unfold clean_before_last in *. cbn [map snd]. destruct ans; cbn [removelast map] in *; [constructor|]. constructor; auto. }
        cbv zeta in Q |- *. rewrite EB. destruct Q as [Q|(Q1 & x & Q2 & Q3)]; [left; exact Q|right]. split; auto. exists x. split; auto.
        unfold last_error in *. cbn [map snd]. destruct ans; [discriminate|exact Q2].
      - destruct (rd_bound _ _ _ _ _ R) as [B _]. exists [need - zlen got], [(bs, Some e)], s'. split; [cbn; now rewrite R|]. split; [constructor|].
        unfold bytes_of. cbn [map fst concat]. rewrite app_nil_r. left. split; auto. rewrite zlen_app in *. lia.
      - exists [need - zlen got], [(bs, Some e)], s'. split; [cbn; now rewrite R|]. split; [constructor|].
        unfold bytes_of. cbn [map fst concat]. rewrite app_nil_r. right. split; auto. exists e. split; [reflexivity|].
        cbv zeta. rewrite andb_comm. do 3 f_equal. pose proof (zlen_nonneg (got ++ bs)).
        destruct (Z.ltb_spec 0 (zlen (got ++ bs))), (Z.eqb_spec (zlen (got ++ bs)) 0); auto; lia. }
    intros stale s bs e s' L H. pose proof (C28_uint16 stale s L) as U. destruct (rd s 2) as [[hdr herr] s1] eqn:R.
    destruct (rd_bound _ _ _ _ _ R) as [B F].
    assert (Pos : 0 <= u16 hdr).
    { unfold u16. destruct hdr as [|x [|y hdr]]; cbn [nth]; try lia.
      - inversion F as [|? ? Fx F2]; subst. unfold is_byte in *. lia.
      - inversion F as [|? ? Fx F2]; subst. inversion F2 as [|? ? Fy F3]; subst. unfold is_byte in *. lia. }
    exists hdr, herr, s1.
    destruct herr as [x|].
    { exists [], []. inversion H; subst; rewrite U in *; try discriminate. match goal with X : (_, _, _) = (_, _, _) |- _ => inversion X; subst end.
      repeat split; auto. }
    destruct (Z.eqb_spec (zlen hdr) 2) as [E2|E2].
    2:{ exists [], []. inversion H; subst; rewrite U in *; try discriminate. match goal with X : (_, _, _) = (_, _, _) |- _ => inversion X; subst end.
        repeat split; auto. }
    inversion H; subst; rewrite U in *; try discriminate; match goal with X : (_, _, _) = (_, _, _) |- _ => inversion X; subst end.
    - exists [], []. split; auto. split; [reflexivity|]. split; [constructor|]. left. auto.
    - match goal with X : ReadFull _ _ _ _ _ _ _ _ |- _ => apply Full in X; [|exact Pos]; destruct X as (reqs & ans & s2 & A & C & Q) end.
      cbv zeta in Q. cbn [app] in Q. destruct Q as [(Q1 & Q2)|(Q1 & x & Q2 & Q3)]; [inversion Q2; subst|discriminate].
      exists reqs, ans. split; [auto|]. split; [auto|]. split; auto.
    - match goal with X : ReadFull _ _ _ _ _ _ _ _ |- _ => apply Full in X; [|exact Pos]; destruct X as (reqs & ans & s2 & A & C & Q) end.
      cbv zeta in Q. cbn [app] in Q. destruct Q as [(Q1 & Q2)|(Q1 & x & Q2 & Q3)]; [discriminate|inversion Q3; subst].
      exists reqs, ans. split; auto. split; auto. split; auto. right. split; auto. split; auto. exists x. auto.
  Qed.

  (** It always returns if the reader never answers a request with neither a byte nor an error. *)
  Theorem C28_bytes_returns :
    (forall s n bs s', 0 < n -> rd s n = (bs, None, s') -> bs <> []) ->
    forall stale s, exists r, ReadBytes S E rd is_eof stale s r.
  Proof.
    intros Pr stale s. destruct (ReadUint16 S E rd stale s) as [[v err] s1] eqn:U.
    destruct err as [e|]; [eexists; eapply RB_header; eauto|].
    destruct (Z.eq_dec v 0) as [->|N]; [eexists; eapply RB_empty; eauto|].
    assert (G : forall k got s0, (Z.to_nat (v - zlen got) <= k)%nat -> exists r, ReadFull S E rd is_eof v got s0 r).
    { induction k as [|k IH]; intros got s0 Lk; (destruct (Z_lt_le_dec (zlen got) v) as [Lt|Ge]; [|eexists; now apply RF_done]); [lia|].
      destruct (rd s0 (v - zlen got)) as [[bs err] s2] eqn:R. destruct err as [e|].
      - destruct (Z_lt_le_dec (zlen (got ++ bs)) v); [eexists; eapply RF_fail; eauto|eexists; eapply RF_last; eauto].
      - assert (bs <> []) by (apply (Pr s0 (v - zlen got) bs s2); auto; lia).
        destruct (IH (got ++ bs) s2) as (r & Hr). { rewrite zlen_app. destruct bs; [congruence|]. rewrite zlen_cons. pose proof (zlen_nonneg bs). lia. }
        exists r. eapply RF_more; eauto. }
    destruct (G _ [] s1 (le_n _)) as ([[bs [e|]] s2] & H).
    - eexists. eapply RB_err; eauto.
    - eexists. eapply RB_ok; eauto.
  Qed.
End AnyReader.

(** Every chunking of the payload is accepted: once the header arrived in one piece,
    ReadBytes returns the payload and leaves the rest, whatever chunks the reader makes. *)
Theorem C28_bytes_chunked : forall S E rd (is_eof : E -> bool) (content : S -> str) eof stale s p rest,
  stream_reader rd content eof -> (forall s, Forall is_byte (content s)) -> Forall is_byte stale ->
  zlen p < 2^16 -> content s = be16 (zlen p) ++ p ++ rest ->
  zlen (fst (fst (rd s 2))) = 2 ->
  exists s', ReadBytes S E rd is_eof stale s (p, None, s') /\ content s' = rest.
Proof.
  intros S E rd is_eof content eof stale s p rest SR CB FS Lp Cs H2. pose proof (zlen_nonneg p) as Np.
  assert (U : exists s1, ReadUint16 S E rd stale s = (zlen p, None, s1) /\ content s1 = p ++ rest).
  { unfold ReadUint16. pose proof (SR s 2 ltac:(lia)) as K. destruct (rd s 2) as [[bs err] s1]. cbn [fst] in H2.
    destruct K as (K1 & K2 & K3 & _). assert (Ne : content s <> []) by (rewrite Cs; discriminate).
    destruct (K3 Ne) as [_ ->]. exists s1. rewrite H2. change (2 <? 2) with false. cbn iota.
    rewrite Cs in K1. destruct bs as [|x [|y [|z bs]]]; unfold zlen in H2; cbn [length] in H2; try lia.
    cbn in K1. inversion K1; subst. split; auto. f_equal. f_equal.
    change (fill stale [zlen p / 256; zlen p mod 256]) with (be16 (zlen p) ++ skipn 2 stale).
    rewrite model_u16, u16_be16; auto.
    - apply Forall_app. split; [apply be16_bytes_ok; lia|]. now apply forall_skipn.
    - rewrite app_length. cbn. lia. }
  destruct U as (s1 & U & C1).
  destruct p as [|b p0]. { exists s1. split; auto. now apply RB_empty. }
  assert (G : forall k got s0, (length (b :: p0) - length got <= k)%nat -> (exists q, b :: p0 = got ++ q /\ content s0 = q ++ rest) ->
     exists s', ReadFull S E rd is_eof (zlen (b :: p0)) got s0 (b :: p0, None, s') /\ content s' = rest).
  { induction k as [|k IH]; intros got s0 Lk (q & Eq & Cq).
    - assert (q = []). { apply length_zero_iff_nil. apply (f_equal (@length Z)) in Eq. rewrite app_length in Eq. lia. }
      subst q. rewrite app_nil_r in Eq. subst got. exists s0. split; auto. apply RF_done. lia.
    - destruct q as [|c q]. { rewrite app_nil_r in Eq. subst got. exists s0. split; auto. apply RF_done. lia. }
      assert (Lt : zlen got < zlen (b :: p0)) by (rewrite Eq, zlen_app, zlen_cons; pose proof (zlen_nonneg q); lia).
      pose proof (SR s0 (zlen (b :: p0) - zlen got) ltac:(lia)) as K.
      destruct (rd s0 (zlen (b :: p0) - zlen got)) as [[bs err] s2] eqn:R. destruct K as (K1 & K2 & K3 & _).
      assert (Ne : content s0 <> []) by (rewrite Cq; discriminate). destruct (K3 Ne) as [Hb ->].
      assert (Hq : exists q2, c :: q = bs ++ q2 /\ content s2 = q2 ++ rest).
      { rewrite Cq in K1. assert (Lb : (length bs <= length (c :: q))%nat).
        { rewrite Eq, zlen_app in K2. unfold zlen in K2. lia. }
        exists (skipn (length bs) (c :: q)). 
        assert (bs = firstn (length bs) (c :: q)).
        { apply (f_equal (firstn (length bs))) in K1. rewrite firstn_app_exact, firstn_app in K1.
          replace (length bs - length (c :: q))%nat with 0%nat in K1 by lia. cbn [firstn] in K1. rewrite app_nil_r in K1. auto. }
        split; [rewrite H at 1; symmetry; apply firstn_skipn|].
        apply (f_equal (skipn (length bs))) in K1. rewrite skipn_app_exact, skipn_app in K1.
        replace (length bs - length (c :: q))%nat with 0%nat in K1 by lia. symmetry. exact K1. }
      destruct Hq as (q2 & Hq & C2).
      destruct (IH (got ++ bs) s2) as (s' & RF & Cs').
      + rewrite app_length. destruct bs as [|b1 bs]; [easy|]. cbn [length] in *. lia.
      + exists q2. split; auto. rewrite <- app_assoc, <- Hq. exact Eq.
      + exists s'. split; auto. eapply RF_more; eauto. }
  destruct (G _ [] s1 (le_n _)) as (s' & RF & C'); [exists (b :: p0); auto|].
  exists s'. split; auto. eapply RB_ok; eauto. unfold zlen. cbn [length]. lia.
Qed.

(** A payload cut short gives an error and no data. *)
Theorem C28_bytes_truncated : forall S E rd (is_eof : E -> bool) (content : S -> str) eof stale s n p,
  stream_reader rd content eof -> is_eof eof = true -> Forall is_byte stale ->
  0 <= n < 2^16 -> zlen p < n -> content s = be16 n ++ p ->
  zlen (fst (fst (rd s 2))) = 2 ->
  exists s', ReadBytes S E rd is_eof stale s
    ([], Some (match p with [] => EIO eof | _ => EUnexpectedEOF end), s').
Proof.
  intros S E rd is_eof content eof stale s n p SR IE FS Hn Lp Cs H2. pose proof (zlen_nonneg p) as Np.
  assert (U : exists s1, ReadUint16 S E rd stale s = (n, None, s1) /\ content s1 = p).
  { unfold ReadUint16. pose proof (SR s 2 ltac:(lia)) as K. destruct (rd s 2) as [[bs err] s1]. cbn [fst] in H2.
    destruct K as (K1 & K2 & K3 & _). assert (Ne : content s <> []) by (rewrite Cs; discriminate).
    destruct (K3 Ne) as [_ ->]. exists s1. rewrite H2. change (2 <? 2) with false. cbn iota.
    rewrite Cs in K1. destruct bs as [|x [|y [|z bs]]]; unfold zlen in H2; cbn [length] in H2; try lia.
    cbn in K1. inversion K1; subst. split; auto. f_equal. f_equal.
    change (fill stale [n / 256; n mod 256]) with (be16 n ++ skipn 2 stale).
    rewrite model_u16, u16_be16; auto.
    - apply Forall_app. split; [apply be16_bytes_ok; lia|]. now apply forall_skipn.
    - rewrite app_length. cbn. lia. }
  destruct U as (s1 & U & C1).
  assert (Last : forall got s0, content s0 = [] -> zlen got < n -> exists bs s',
     ReadFull S E rd is_eof n got s0 (bs, Some (match got with [] => EIO eof | _ => EUnexpectedEOF end), s')).
  { intros got s0 Ce Lt. pose proof (SR s0 (n - zlen got) ltac:(lia)) as K.
    destruct (rd s0 (n - zlen got)) as [[bs err] s2] eqn:R. destruct K as (K1 & _ & _ & K4).
    rewrite (K4 Ce) in R. rewrite Ce in K1. symmetry in K1. apply app_eq_nil in K1. destruct K1 as [-> _].
    exists (got ++ []), s2.
    replace (match got with [] => EIO eof | _ => EUnexpectedEOF end) with
        (if (0 <? zlen (got ++ [])) && is_eof eof then EUnexpectedEOF else EIO eof).
    - eapply RF_fail; eauto. now rewrite app_nil_r.
    - rewrite app_nil_r, IE, andb_true_r. destruct got; reflexivity. }
  assert (G : forall k got s0, (length (content s0) <= k)%nat -> zlen (got ++ content s0) < n ->
     exists bs s', ReadFull S E rd is_eof n got s0
       (bs, Some (match got ++ content s0 with [] => EIO eof | _ => EUnexpectedEOF end), s')).
  { induction k as [|k IH]; intros got s0 Lk Ln;
      (assert (Lt : zlen got < n) by (rewrite zlen_app in Ln; pose proof (zlen_nonneg (content s0)); lia)).
    - assert (Ce : content s0 = []) by (apply length_zero_iff_nil; lia).
      rewrite Ce, app_nil_r. now apply Last.
    - destruct (content s0) as [|c0 ct] eqn:Ce; [rewrite app_nil_r; now apply Last|].
      pose proof (SR s0 (n - zlen got) ltac:(lia)) as K.
      destruct (rd s0 (n - zlen got)) as [[bs err] s2] eqn:R; destruct K as (K1 & K2 & K3 & K4).
      rewrite Ce in *. destruct (K3 ltac:(easy)) as [Hb ->].
      destruct (IH (got ++ bs) s2) as (bs2 & s' & RF).
      + rewrite K1 in Lk. rewrite app_length in Lk. destruct bs; [easy|]. cbn [length] in Lk. lia.
      + rewrite <- app_assoc, <- K1. exact Ln.
      + exists bs2, s'. eapply RF_more; eauto. rewrite <- app_assoc, <- K1 in RF. exact RF. }
  destruct (G _ [] s1 (le_n _)) as (bs & s' & RF). { rewrite C1. exact Lp. }
  rewrite C1 in RF. exists s'. eapply RB_err; eauto. lia.
Qed.

(** A correct stream delivered one byte at a time is rejected by ReadUint16. *)
Definition byte_read (s : str) (n : Z) : str * option bufErr * str :=
  match s with [] => ([], Some EOF, []) | b :: t => ([b], None, t) end.
Theorem C28_chunked_header_refuted :
  stream_reader byte_read (fun s => s) EOF /\
  ReadUint16 _ _ byte_read [0;0] (be16 258) = (0, Some EInvalidLength, [2]).
Proof.
  split; [|reflexivity]. intros s n Hn. destruct s as [|b s]; cbn [byte_read].
  - repeat split; auto; try easy. unfold zlen. cbn. lia.
  - repeat split; auto; try easy. unfold zlen. cbn. lia.
Qed.

(** A Read returning (0, nil) makes ReadBool answer from the recycled buffer. *)
Theorem C28_stale_bool_refuted : exists (rd : unit -> Z -> str * option bufErr * unit),
  (forall s n, rd s n = ([], None, tt)) /\
  ReadBool _ _ rd [1] tt = (true, None, tt) /\ ReadBool _ _ rd [0] tt = (false, None, tt).
Proof. exists (fun _ _ => ([], None, tt)). repeat split. Qed.

(** bytes.Buffer is a stream reader, so the theorems above apply to it. *)
Example C28_ex : stream_reader buf_read (fun s => s) EOF.
Proof.
  intros s n Hn. unfold buf_read. destruct s as [|b s].
  - destruct (n =? 0) eqn:E; [apply Z.eqb_eq in E; lia|]. repeat split; auto; try easy. unfold zlen; cbn; lia.
  - split; [symmetry; apply firstn_skipn|]. split; [unfold zlen; rewrite firstn_length; lia|]. split; [|easy].
    intros _. split; auto. destruct (Z.to_nat n) eqn:E; [lia|discriminate].
Qed.

Print Assumptions C26_round_trip. Print Assumptions C27_long_refuted. Print Assumptions C28_bytes_chunked.
Print Assumptions C28_bytes_truncated. Print Assumptions C28_bytes_safe.
Print Assumptions C28_bytes_exact. Print Assumptions C28_bytes_returns.
