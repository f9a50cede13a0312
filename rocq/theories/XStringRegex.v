(** * xstring.IsNumerical: a regular-expression engine for the pattern it uses

    xstring.go:494-498 calls regexp.MatchString with the pattern `^\d+.?\d*$`.  The
    engine is modelled by derivatives over the runes of the subject (RE2 semantics for
    the constructs used: literal classes, +, ?, *, anchors at both ends). *)
From Coq Require Import ZArith List Bool Lia.
From Verif Require Import GoBase Utf8Model Utf8Facts.
Import ListNotations.
Open Scope Z_scope.

Inductive re :=
| Void
| Eps
| Cls (f : Z -> bool)
| Cat (a b : re)
| Alt (a b : re)
| Star (a : re).

Definition Plus (a : re) : re := Cat a (Star a).
Definition Opt (a : re) : re := Alt Eps a.

Fixpoint nullable (r : re) : bool :=
  match r with
  | Void => false | Eps => true | Cls _ => false
  | Cat a b => nullable a && nullable b
  | Alt a b => nullable a || nullable b
  | Star _ => true
  end.

Fixpoint deriv (c : Z) (r : re) : re :=
  match r with
  | Void => Void | Eps => Void
  | Cls f => if f c then Eps else Void
  | Cat a b => if nullable a then Alt (Cat (deriv c a) b) (deriv c b) else Cat (deriv c a) b
  | Alt a b => Alt (deriv c a) (deriv c b)
  | Star a => Cat (deriv c a) (Star a)
  end.

Fixpoint matches (r : re) (l : list Z) : bool :=
  match l with [] => nullable r | c :: l' => matches (deriv c r) l' end.

(** \d and . of RE2 (dot excludes newline). *)
Definition re_digit (c : Z) : bool := between 48 57 c.
Definition re_dot (c : Z) : bool := negb (c =? 10).

(** The pattern at xstring.go:496; `^` and `$` (no multi-line flag) make the match cover
    the whole subject. *)
Definition numerical_re : re := Cat (Plus (Cls re_digit)) (Cat (Opt (Cls re_dot)) (Star (Cls re_digit))).

(** xstring.go:495-498 *)
Definition IsNumerical (s : str) : bool := matches numerical_re (runes s).

(** ** Meaning of regular expressions *)
Inductive lang : re -> list Z -> Prop :=
| L_eps : lang Eps []
| L_cls : forall f c, f c = true -> lang (Cls f) [c]
| L_cat : forall a b l1 l2, lang a l1 -> lang b l2 -> lang (Cat a b) (l1 ++ l2)
| L_altl : forall a b l, lang a l -> lang (Alt a b) l
| L_altr : forall a b l, lang b l -> lang (Alt a b) l
| L_star0 : forall a, lang (Star a) []
| L_starS : forall a l1 l2, lang a l1 -> lang (Star a) l2 -> lang (Star a) (l1 ++ l2).

Lemma nullable_lang : forall r, nullable r = true <-> lang r [].
Proof.
  induction r; simpl; split; intros H; try discriminate; try (inversion H; fail); auto using L_eps, L_star0.
  - apply andb_true_iff in H. change (@nil Z) with (@nil Z ++ []). constructor; tauto.
  - inversion H. apply app_eq_nil in H2. destruct H2; subst. apply andb_true_iff; tauto.
  - apply orb_true_iff in H. destruct H; [apply L_altl|apply L_altr]; tauto.
  - inversion H; subst; apply orb_true_iff; tauto.
Qed.

Lemma star_cons : forall r l, lang r l -> forall a c l', r = Star a -> l = c :: l' ->
  exists l1 l2, l' = l1 ++ l2 /\ lang a (c :: l1) /\ lang (Star a) l2.
Proof.
  induction 1; intros a' c' l' E1 E2; try discriminate.
  inversion E1; subst a'. destruct l1 as [|x l1].
  - simpl in E2. eapply IHlang2; eauto.
  - inversion E2; subst. exists l1, l2. auto.
Qed.

Lemma deriv_lang : forall r c l, lang (deriv c r) l <-> lang r (c :: l).
Proof.
  induction r; intros c l; simpl.
  - split; intros H; inversion H.
  - split; intros H; inversion H.
  - destruct (f c) eqn:E; split; intros H; inversion H; subst; try congruence; constructor; auto.
  - assert (Hc : lang (Cat (deriv c r1) r2) l <-> exists l1 l2, l = l1 ++ l2 /\ lang r1 (c :: l1) /\ lang r2 l2).
    { split.
      - intros H. inversion H; subst. exists l1, l2. rewrite <- IHr1. auto.
      - intros (l1 & l2 & -> & H1 & H2). constructor; auto. now apply IHr1. }
    destruct (nullable r1) eqn:N.
    + split.
      * intros H. inversion H; subst.
        -- apply Hc in H3. destruct H3 as (l1 & l2 & -> & H1 & H2). rewrite app_comm_cons. now constructor.
        -- apply nullable_lang in N. apply IHr2 in H3. change (c :: l) with ([] ++ c :: l). now constructor.
      * intros H. inversion H; subst. destruct l1 as [|x l1].
        -- simpl in H2. subst. apply L_altr. now apply IHr2.
        -- inversion H2; subst. apply L_altl. apply Hc. eauto.
    + rewrite Hc. split.
      * intros (l1 & l2 & -> & H1 & H2). rewrite app_comm_cons. now constructor.
      * intros H. inversion H; subst. destruct l1 as [|x l1].
        -- apply nullable_lang in H3. congruence.
        -- inversion H2; subst. eauto.
  - split; intros H; inversion H; subst; try (apply L_altl; now apply IHr1); apply L_altr; now apply IHr2.
  - split.
    + intros H. inversion H; subst. rewrite app_comm_cons. constructor; auto. now apply IHr.
    + intros H. destruct (star_cons _ _ H _ _ _ eq_refl eq_refl) as (l1 & l2 & -> & H1 & H2).
      constructor; auto. now apply IHr.
Qed.

Theorem matches_lang : forall l r, matches r l = true <-> lang r l.
Proof.
  induction l as [|c l IH]; intros r; simpl.
  - apply nullable_lang.
  - rewrite IH. apply deriv_lang.
Qed.

Lemma star_cls : forall f r l, lang r l -> r = Star (Cls f) -> forallb f l = true.
Proof.
  induction 1; intros E; try discriminate; auto. inversion E; subst. inversion H; subst.
  simpl. rewrite H2. simpl. auto.
Qed.

Lemma cls_star : forall f l, forallb f l = true -> lang (Star (Cls f)) l.
Proof.
  induction l as [|c l IH]; intros H; [constructor|]. simpl in H. apply andb_true_iff in H.
  change (c :: l) with ([c] ++ l). constructor; [constructor|]; tauto.
Qed.

Lemma numerical_lang : forall l, lang numerical_re l <->
  exists ds o es, l = ds ++ o ++ es /\ ds <> [] /\ forallb re_digit ds = true /\
    (o = [] \/ exists c, o = [c] /\ c <> 10) /\ forallb re_digit es = true.
Proof.
  intros l. unfold numerical_re, Plus, Opt. split.
  - intros H. inversion H as [| |a b x y Hx Hy E1 E2 | | | |]; subst. clear H.
    inversion Hx as [| |a b x1 x2 H1 H2 E1 E2 | | | |]; subst. clear Hx.
    inversion Hy as [| |a b y1 y2 H3 H4 E1 E2 | | | |]; subst. clear Hy.
    inversion H1; subst. apply star_cls with (f := re_digit) in H2; auto. apply star_cls with (f := re_digit) in H4; auto.
    exists ([c] ++ x2), y1, y2. split; auto. split; [easy|]. split. { simpl. now rewrite H0. }
    split; auto. inversion H3 as [| | |a b x Ha E1 E2|a b x Hb E1 E2| |]; subst. { inversion Ha; auto. }
    inversion Hb as [|f c0 Hf E1 E2| | | | |]; subst. right. exists c0. split; auto. unfold re_dot in Hf. intros ->. discriminate.
  - intros (ds & o & es & -> & N & Hd & Ho & He). constructor; [|constructor].
    + destruct ds as [|d ds]; [easy|]. simpl in Hd. apply andb_true_iff in Hd. change (d :: ds) with ([d] ++ ds).
      constructor; [constructor; tauto|]. apply cls_star. tauto.
    + destruct Ho as [-> |(c & -> & Hc)]; [apply L_altl; constructor|]. apply L_altr. constructor.
      unfold re_dot. apply negb_true_iff, Z.eqb_neq. exact Hc.
    + now apply cls_star.
Qed.
