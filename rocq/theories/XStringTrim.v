(** * The Trim family of xstring (xstring.go:453-483)

    These functions delegate to strings.TrimSpace/Trim/TrimLeft/TrimRight; the library
    loops are modelled here (strings.trimLeftUnicode, trimRightUnicode, TrimFunc): decode
    one rune at the end concerned, drop it while it belongs to the cut set.  The ASCII
    fast paths of the library are not modelled separately; on their inputs they do the
    same thing. *)
From Coq Require Import ZArith List Bool Lia.
From Verif Require Import GoBase Utf8Model Utf8Spec Utf8Facts XStringModel XStringSpec XStringProofs XStringProofs2.
Import ListNotations.
Open Scope Z_scope.

(** strings.ContainsRune *)
Definition contains_rune (cutset : str) (r : Z) : bool := existsb (Z.eqb r) (runes cutset).

(** strings.TrimLeftFunc; fuel: one byte at least per iteration. *)
Fixpoint trim_left_loop (fuel : nat) (cut : Z -> bool) (s : str) : str :=
  match fuel, s with
  | S f, _ :: _ => let '(r, n) := decode s in if cut r then trim_left_loop f cut (skipn n s) else s
  | _, _ => s
  end.
(** strings.TrimRightFunc *)
Fixpoint trim_right_loop (fuel : nat) (cut : Z -> bool) (s : str) : str :=
  match fuel, s with
  | S f, _ :: _ => let '(r, n) := decode_last s in
                   if cut r then trim_right_loop f cut (firstn (length s - Z.to_nat n) s) else s
  | _, _ => s
  end.

(** xstring.go:473-475 *)
Definition TrimLeft (s stripStr : str) : str := trim_left_loop (length s) (contains_rune stripStr) s.
(** xstring.go:481-483 *)
Definition TrimRight (s stripStr : str) : str := trim_right_loop (length s) (contains_rune stripStr) s.
(** xstring.go:461-467; strings.Trim trims left, then right. *)
Definition Trim (s cutSet : str) : str :=
  if IsEmpty s then s
  else let t := trim_left_loop (length s) (contains_rune cutSet) s in
       trim_right_loop (length t) (contains_rune cutSet) t.
(** xstring.go:455-457 *)
Definition TrimSpace (s : str) : str :=
  let t := trim_left_loop (length s) is_space s in trim_right_loop (length t) is_space t.

(** strings.IndexAny: the loop over s; its fast paths (one-byte or ASCII chars) do the same *)
Fixpoint index_any_loop (fuel : nat) (cut : Z -> bool) (i : Z) (s : str) : Z :=
  match fuel, s with
  | S f, _ :: _ => let '(r, n) := decode s in if cut r then i else index_any_loop f cut (i + Z.of_nat n) (skipn n s)
  | _, _ => -1
  end.
(** xstring.go:604-606 *)
Definition IndexAny (s chars : str) : Z := index_any_loop (length s) (contains_rune chars) 0 s.

(** ** Facts *)

Fixpoint drop_while {A} (f : A -> bool) (l : list A) : list A :=
  match l with [] => [] | x :: l' => if f x then drop_while f l' else l end.
Definition drop_end {A} (f : A -> bool) (l : list A) : list A := rev (drop_while f (rev l)).

Lemma trim_left_runes : forall fuel cut s, (length s <= fuel)%nat ->
  runes (trim_left_loop fuel cut s) = drop_while cut (runes s) /\ suffix_of (trim_left_loop fuel cut s) s.
Proof.
  induction fuel as [|f IH]; intros cut s L.
  - assert (s = []) as -> by (apply length_zero_iff_nil; lia). split; auto. exists []; auto.
  - destruct s as [|b t]; [split; auto; exists []; auto|]. cbn [trim_left_loop].
    rewrite (runes_step (b :: t)) by easy. pose proof (decode_width (b :: t) ltac:(easy)) as W.
    destruct (decode (b :: t)) as [r n] eqn:D. cbn [fst snd drop_while] in *.
    destruct (cut r) eqn:C.
    + destruct (IH cut (skipn n (b :: t))) as [H1 (p & H2)]. { rewrite skipn_length. lia. }
      split; auto. exists (firstn n (b :: t) ++ p). rewrite <- app_assoc, <- H2. symmetry. apply firstn_skipn.
    + split; [rewrite (runes_step (b :: t)) by easy; now rewrite D|]. exists []; auto.
Qed.

Lemma trim_right_runes : forall fuel cut rs, scalars rs -> (length (encs rs) <= fuel)%nat ->
  trim_right_loop fuel cut (encs rs) = encs (drop_end cut rs).
Proof.
  induction fuel as [|f IH]; intros cut rs Hs L.
  - assert (encs rs = []) as E by (apply length_zero_iff_nil; lia). apply encs_nil_inv in E. subst. reflexivity.
  - destruct rs as [|r0 rs0] eqn:E0; [reflexivity|]. rewrite <- E0 in *.
    assert (Hne : rs <> []) by (subst; easy). clear E0 r0 rs0.
    destruct (exists_last Hne) as (rs' & r & ->). apply scalars_app in Hs. destruct Hs as [Hs' Hr].
    apply Forall_inv in Hr. rewrite encs_snoc in *. pose proof (encode_length r) as Le.
    cbn [trim_right_loop]. destruct (encs rs' ++ encode r) as [|b t] eqn:E.
    { apply app_eq_nil in E. destruct E as [_ E]. now apply encode_nonempty in E. }
    rewrite <- E. rewrite decode_last_encode by auto. unfold drop_end. rewrite rev_app_distr. cbn [rev app drop_while].
    destruct (cut r).
    + rewrite app_length, zlen_length. replace (length (encs rs') + length (encode r) - length (encode r))%nat with (length (encs rs')) by lia.
      rewrite firstn_app, Nat.sub_diag, firstn_all. cbn [firstn]. rewrite app_nil_r. apply IH; auto.
      assert (LL := f_equal (@length Z) E). rewrite app_length in LL. lia.
    + cbn [rev]. now rewrite rev_involutive, encs_snoc.
Qed.

Lemma drop_while_split : forall {A} (f : A -> bool) l, exists a,
  l = a ++ drop_while f l /\ forallb f a = true /\
  (forall x t, drop_while f l = x :: t -> f x = false).
Proof.
  induction l as [|x l (a & H1 & H2 & H3)]; simpl.
  - exists []. repeat split; auto. discriminate.
  - destruct (f x) eqn:E.
    + exists (x :: a). simpl. rewrite <- H1, E. auto.
    + exists []. repeat split; auto. intros y t H. inversion H; subst. exact E.
Qed.

Lemma drop_end_split : forall {A} (f : A -> bool) l, exists a,
  l = drop_end f l ++ a /\ forallb f a = true /\
  (forall x t, drop_end f l = t ++ [x] -> f x = false).
Proof.
  intros A f l. destruct (drop_while_split f (rev l)) as (a & H1 & H2 & H3). exists (rev a). split; [|split].
  - unfold drop_end. rewrite <- rev_app_distr, <- H1. symmetry. apply rev_involutive.
  - rewrite forallb_forall in *. intros x Hx. apply H2. now apply in_rev.
  - intros x t H. apply (H3 x (rev t)). unfold drop_end in H. rewrite <- (rev_involutive (drop_while f (rev l))), H, rev_app_distr. reflexivity.
Qed.

Lemma index_any_ok : forall fuel cut i s, (length s <= fuel)%nat -> 0 <= i ->
  (index_any_loop fuel cut i s = -1 /\ forall r, In r (runes s) -> cut r = false) \/
  (exists pre rest r rs rs', index_any_loop fuel cut i s = i + zlen pre /\ s = pre ++ rest /\ runes s = rs ++ runes rest /\ runes rest = r :: rs' /\
     cut r = true /\ forall x, In x rs -> cut x = false).
Proof.
  induction fuel as [|f IH]; intros cut i s L Hi.
  - assert (s = []) as -> by (apply length_zero_iff_nil; lia). left. split; auto. intros r [].
  - destruct s as [|b t]; [left; split; auto; intros r []|]. cbn [index_any_loop].
    pose proof (runes_step (b :: t) ltac:(easy)) as RS. pose proof (decode_width (b :: t) ltac:(easy)) as W.
    destruct (decode (b :: t)) as [r n] eqn:D. cbn [fst snd] in *. destruct (cut r) eqn:C.
    + right. exists [], (b :: t), r, [], (runes (skipn n (b :: t))). rewrite RS. repeat split; auto; [unfold zlen; cbn; lia|intros x []].
    + destruct (IH cut (i + Z.of_nat n) (skipn n (b :: t))) as [[E1 E2]|(pre & rest & r' & rs & rs' & E1 & E2 & E3 & E4 & E5 & E6)]; [rewrite skipn_length; lia|lia| |].
      * left. split; auto. rewrite RS. intros x [<-|Hx]; auto.
      * right. exists (firstn n (b :: t) ++ pre), rest, r', (r :: rs), rs'. rewrite RS, E1. split; [|split; [|split; [|split; [|split]]]]; auto.
        -- rewrite zlen_app. unfold zlen at 2. rewrite firstn_length. lia.
        -- rewrite <- app_assoc, <- E2. symmetry. apply firstn_skipn.
        -- cbn. now rewrite E3.
        -- intros x [<-|Hx]; auto.
Qed.
Lemma contains_rune_in : forall c r, contains_rune c r = true <-> In r (runes c).
Proof.
  intros c r. unfold contains_rune. rewrite existsb_exists. split; [intros (x & H & E); apply Z.eqb_eq in E; now subst|intros H; exists r; split; auto; apply Z.eqb_refl].
Qed.
