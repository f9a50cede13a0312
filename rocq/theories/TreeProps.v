(** * Properties of stream expressions with Concat (C88) *)
From Coq Require Import List Bool Arith ZArith Lia Permutation.
From Verif Require Import GoBase Trans NetModel NetSpec NetProofs XStreamModel XStreamSpec XStreamProofs XStreamProps FanModel FanSpec FanProofs FanProps
  PipeModel PipeSpec PipeProofs PipeProps TreeModel TreeSpec TreeProofs TreeGoods.
Import ListNotations.
Open Scope nat_scope.

Section Props.
Context {A : Type}.
Notation item := (item A). Notation sexp := (sexp item (call A)). Notation tree := (tree item (call A)).

(** ** C88: sources, operators, Walk and Concat, nested at will; any capacities, worker counts and schedule *)
Theorem C88_expression : forall e : sexp, ok e -> gives (plant e) (may e).
Proof. exact tree_gives. Qed.

(** ... with a terminal operation: it makes the calls it makes alone on one of the possible streams *)
Theorem C88_terminal : forall (e : sexp) t plan, ok e -> (forall ys, may e ys -> performs t ys (plan ys)) ->
  ends_with (plant_end t e) (fun es => exists ys, may e ys /\ es = calls (plan ys)).
Proof. exact tree_ends. Qed.

(** Every run, however far it got, can be continued to the end; there the reader has a result. *)
Theorem C88_completes : forall (s0 : tree) P, gives s0 P -> forall tr s, steps tmove s0 tr s ->
  exists tr' s', steps tmove s tr' s' /\ tover s' /\ P (tdelivered (tr ++ tr')) /\ tmove s' QEnd s'.
Proof.
  intros s0 P G tr s R. pose proof (gi_halts _ _ G _ _ R) as H. revert tr R. induction H as [s _ IH]. intros tr R.
  destruct (gi_live _ _ G _ _ R) as [(l & s1 & Nl & St)|Ov].
  - destruct (IH l s1 Nl St (tr ++ [l])) as (tr' & s' & R' & Ov & HP & He); [eapply steps_snoc; eauto|].
    exists (l :: tr'), s'. split; [eapply steps_cons; eauto|]. rewrite <- app_assoc in HP. auto.
  - exists [], s. split; [apply steps_nil|]. rewrite app_nil_r. split; auto. eapply gi_over; eauto.
Qed.

(** *** Well-known expressions, for every input, number of streams, function, worker count and schedule *)
(** Of(xs...).Map(fn, opts) *)
Definition mapped (b : (item -> item) * list Z * list item * nat) : sexp :=
  match b with (fn, opts, xs, k) => XWalk (map_fun fn) (loadOptions opts) (XSrc xs k) end.
Definition images (b : (item -> item) * list Z * list item * nat) : list item := match b with (fn, _, xs, _) => map fn xs end.

Lemma mapped_ok : forall b, ok (mapped b).
Proof. intros [[[fn opts] xs] k]. constructor; [constructor|apply opts_pos]. Qed.
Lemma mapped_may : forall b ys, may (mapped b) ys -> Permutation ys (images b).
Proof.
  intros [[[fn opts] xs] k] ys H. inversion H as [| |? ? ? us ? Hm [Hi _]|]; subst. inversion Hm; subst.
  apply interleaving_perm in Hi. now rewrite concat_map_fun in Hi.
Qed.
Lemma Forall2_perm : forall (I : Type) (F : I -> list item) (G : I -> sexp) (bs : list I) (Hm : forall b ys, may (G b) ys -> Permutation ys (F b)) xss,
  Forall2 may (map G bs) xss -> Permutation (concat xss) (concat (map F bs)).
Proof.
  intros I F G bs Hm. induction bs as [|b bs IH]; intros xss H; inversion H; subst; cbn; auto. apply Permutation_app; auto.
Qed.

(** m0.Concat(m1, ..., mn).Sort(less), each mi a mapped stream: the images of all items, sorted *)
Theorem C88_concat_sort : forall bs b less slice k, sorts less slice ->
  gives (plant (XSeq (Sort slice) k (XCat (map mapped bs) (mapped b))))
    (fun ys => Permutation ys (concat (map images (bs ++ [b]))) /\ sorted less ys).
Proof.
  intros bs b less slice k Hs.
  assert (Wk : forall us, works (Sort slice) us (slice us)).
  { intros us. unfold Sort. eapply ev_works'; [apply ev_collect_send|]. apply outs_collect_send. }
  eapply gives_imp; [|apply C88_expression].
  - intros ys H. inversion H as [|? ? ? us ? Hm Hw| |]; subst. rewrite (works_det _ _ _ _ Hw (Wk us)). destruct (Hs us) as [Pm So]. split; auto.
    eapply Permutation_trans; [exact Pm|]. inversion Hm as [| | |? ? xss xs ? F2 Hb Hi]; subst. apply interleaving_perm in Hi.
    eapply Permutation_trans; [exact Hi|]. rewrite concat_app, map_app, concat_app. cbn. rewrite !app_nil_r. apply Permutation_app.
    + eapply Forall2_perm; [|exact F2]. apply mapped_may.
    + now apply mapped_may.
  - constructor; [|intros; eexists; apply Wk]. constructor; [|apply mapped_ok]. apply Forall_forall. intros e He. apply in_map_iff in He. destruct He as (x & <- & _). apply mapped_ok.
Qed.

(** s0.Concat(s1, ..., sn).Count(): the number of items of all streams *)
Theorem C88_concat_count : forall (ss : list (list item * nat)) xs k, (zlen (concat (map fst ss) ++ xs) < 2^63)%Z ->
  ends_with (plant_end Count (XCat (map (fun s => XSrc (fst s) (snd s)) ss) (XSrc xs k)))
    (fun es => es = [RetZ (zlen (concat (map fst ss) ++ xs))]).
Proof.
  intros ss xs k Lz.
  assert (Ok : ok (E := call A) (XCat (map (fun s => XSrc (fst s) (snd s)) ss) (XSrc xs k))).
  { constructor; [|constructor]. apply Forall_forall. intros e He. apply in_map_iff in He. destruct He as (x & <- & _). constructor. }
  assert (Len : forall ys, may (E := call A) (XCat (map (fun s => XSrc (fst s) (snd s)) ss) (XSrc xs k)) ys -> zlen ys = zlen (concat (map fst ss) ++ xs)).
  { intros ys H. inversion H as [| | |? ? xss us ? F2 Hb Hi]; subst. inversion Hb; subst. apply interleaving_perm in Hi. unfold zlen. f_equal. rewrite (Permutation_length Hi).
    rewrite concat_app, !app_length. cbn. rewrite app_nil_r. f_equal. apply Permutation_length.
    apply (Forall2_perm _ (fun s => fst s) (fun s => XSrc (fst s) (snd s))); auto. intros b zs Hz. inversion Hz; subst. auto. }
  eapply ends_imp; [|eapply (C88_terminal _ Count (fun ys => reads ys ++ [AcC (RetZ (zlen ys))])); [exact Ok|]].
  - intros es (ys & Hm & ->). rewrite (Len ys Hm). unfold calls. rewrite flat_map_app. unfold reads. rewrite flat_map_app. cbn.
    replace (flat_map _ (map _ ys)) with (@nil (call A)); auto. clear. induction ys; cbn; auto.
  - intros ys Hm. apply C68_count. rewrite (Len ys Hm). exact Lz.
Qed.

(** Concat of Concats: a tree of sources delivers all items of all of them, whatever its shape *)
Fixpoint sources (e : sexp) : option (list (list item)) :=
  match e with
  | XSrc xs _ => Some [xs]
  | XCat es a =>
      fold_right (fun e r => match sources e, r with Some x, Some y => Some (x ++ y) | _, _ => None end) (sources a) es
  | _ => None
  end.
Theorem C88_nested : forall (e : sexp) l, sources e = Some l -> gives (plant e) (fun ys => Permutation ys (concat l)).
Proof.
  assert (G : forall e l, sources e = Some l -> ok e /\ forall ys, may e ys -> Permutation ys (concat l)).
  { induction e as [xs k|p k e IH|f w e IH|es a IHs IH] using sexp_ind2; intros l H; cbn in H; try discriminate.
    - injection H as <-. split; [constructor|]. intros ys Hm. inversion Hm; subst. cbn. now rewrite app_nil_r.
    - assert (X : Forall ok es /\ ok a /\ forall xss xs, Forall2 may es xss -> may a xs -> Permutation (concat (xss ++ [xs])) (concat l)).
      { revert l H. induction IHs as [|e es He Hes IHe]; intros l H; cbn in H.
        - destruct (IH l H) as [Oa Pa]. split; auto. split; auto. intros xss xs F2 Ha. inversion F2; subst. cbn. rewrite app_nil_r. auto.
        - destruct (sources e) as [x|] eqn:Ex; [|discriminate].
          destruct (fold_right _ (sources a) es) as [y|] eqn:Ey; [|discriminate]. injection H as <-.
          destruct (He x eq_refl) as [Oe Pe]. destruct (IHe y eq_refl) as (Oes & Oa & Pes). split; auto. split; auto.
          intros xss xs F2 Ha. inversion F2; subst. cbn [app concat]. rewrite (concat_app x y). apply Permutation_app; auto. }
      destruct X as (Oes & Oa & Pm). split; [now constructor|]. intros ys Hm. inversion Hm as [| | |? ? xss xs ? F2 Ha Hi]; subst.
      apply interleaving_perm in Hi. eapply Permutation_trans; [exact Hi|]. auto. }
  intros e l H. destruct (G e l H) as [Oe Pm]. eapply gives_imp; [exact Pm|]. now apply C88_expression.
Qed.

(** The items of one stream of a Concat are delivered in their order: if no item of the other
    streams satisfies g, the delivered items that satisfy g are those of this stream, in its order *)
Lemma takes_filter : forall (g : item -> bool) ls s r, takes ls s r -> forall i l, nth_error ls i = Some l ->
  (forall j l', nth_error ls j = Some l' -> j <> i -> filter g l' = []) ->
  (forall j l', nth_error r j = Some l' -> j <> i -> filter g l' = []) /\ exists ri, nth_error r i = Some ri /\ filter g l = filter g s ++ filter g ri.
Proof.
  intros g ls s r H. induction H as [ls|ls s l1 v r l2 H IH]; intros i l Hi Ho; [split; eauto|].
  destruct (IH i l Hi Ho) as (H1 & ri & H2 & H3). destruct (Nat.eq_dec i (length l1)) as [->|Ne].
  - rewrite nth_mid in H2. injection H2 as <-. split.
    + intros j l' Hj Nj. rewrite (nth_other _ l1 r (v :: r)) in Hj by auto. eauto.
    + exists r. split; [apply nth_mid|]. rewrite H3, filter_app. cbn. destruct (g v); cbn; [|now rewrite app_nil_r]. now rewrite <- app_assoc.
  - assert (F : g v = false /\ filter g r = []).
    { specialize (H1 (length l1) (v :: r) (nth_mid _ _ _ _) ltac:(congruence)). cbn in H1. destruct (g v); [discriminate|auto]. }
    destruct F as [Fv Fr]. split.
    + intros j l' Hj Nj. destruct (Nat.eq_dec j (length l1)) as [->|Nj2]; [rewrite nth_mid in Hj; now injection Hj as <-|].
      rewrite (nth_other _ l1 r (v :: r)) in Hj by auto. eauto.
    + exists ri. rewrite (nth_other _ l1 r (v :: r)) by auto. split; auto. rewrite filter_app. cbn. rewrite Fv, app_nil_r. exact H3.
Qed.
Theorem C88_order : forall (ss : list (list item * nat)) xs k i us n (g : item -> bool), nth_error (ss ++ [(xs, k)]) i = Some (us, n) ->
  (forall j vs m, nth_error (ss ++ [(xs, k)]) j = Some (vs, m) -> j <> i -> Forall (fun v => g v = false) vs) ->
  gives (E := call A) (plant (XCat (map (fun s => XSrc (fst s) (snd s)) ss) (XSrc xs k))) (fun ys => filter g ys = filter g us).
Proof.
  intros ss xs k i us n g Hi Ho. eapply gives_imp; [|apply C88_expression].
  - intros ys H. inversion H as [| | |? ? xss ws ? F2 Hb Ht]; subst. inversion Hb; subst.
    assert (Ex : xss = map fst ss). { clear -F2. revert xss F2. induction ss as [|s ss IH]; intros xss F2; inversion F2 as [|? ? ? ? Hm F3]; subst; cbn; auto. inversion Hm; subst. f_equal. auto. }
    subst xss. unfold interleaving in Ht. replace (map fst ss ++ [ws]) with (map fst (ss ++ [(ws, k)])) in Ht by apply map_app.
    destruct (takes_filter g _ _ _ Ht i us) as (_ & ri & H1 & H2).
    + now rewrite nth_error_map, Hi.
    + intros j l' Hj Nj. rewrite nth_error_map in Hj. destruct (nth_error (ss ++ [(ws, k)]) j) as [[vs m]|] eqn:Ej; [|discriminate]. injection Hj as <-.
      specialize (Ho _ _ _ Ej Nj). cbn. clear -Ho. induction Ho as [|v vs Hv Ho IH]; cbn; auto. now rewrite Hv.
    + rewrite map_map, nth_error_map in H1. destruct (nth_error _ i); [|discriminate]. injection H1 as <-. cbn in H2. now rewrite app_nil_r in H2.
  - constructor; [|constructor]. apply Forall_forall. intros e He. apply in_map_iff in He. destruct He as (x & <- & _). constructor.
Qed.
End Props.

(** *** Concrete cases *)
(** Of(3,1,3,nil,2,1).Map(neg, 3 workers).Concat(Of(1,2).Concat(Of(7)), Of().Reverse()).Distinct(key) *)
Definition ex_tree : sexp (item nat) (call nat) :=
  XSeq (distinct ex_key []) 0
    (XCat [XCat [XSrc [IAtom 7] 1] (XSrc [IAtom 1; IAtom 2] 2); XSeq Reverse 0 (XSrc [] 0)] (XWalk (map_fun neg) 3 (XSrc ex_items 6))).
Example C88_ex_ok : ok ex_tree.
Proof.
  constructor; [|intros; eexists; apply (C62_distinct ex_key xs)]. constructor.
  - constructor; [|constructor; [|constructor]].
    + constructor; [|constructor]. constructor; [constructor|constructor].
    + constructor; [constructor|]. intros; eexists; apply (C66_reverse xs).
  - constructor; [constructor|lia].
Qed.
Example C88_ex : exists tr s, steps tmove (plant ex_tree) tr s /\ tover s /\ may ex_tree (tdelivered tr) /\ tmove s QEnd s.
Proof. exact (C88_completes _ _ (C88_expression _ C88_ex_ok) [] _ (steps_nil _ _)). Qed.
(** Concat(Of(1,2), Of(7)).Count() answers 3 *)
Example C88_ex_count : ends_with (plant_end Count (XCat [XSrc [IAtom 7] 0] (XSrc [IAtom 1; IAtom 2] 0))) (fun es => es = [@RetZ nat 3]).
Proof. exact (C88_concat_count [([IAtom 7], 0)] [IAtom 1; IAtom 2] 0 ltac:(vm_compute; reflexivity)). Qed.
(** items of different streams may overtake each other *)
Example C88_ex_may : may (XCat (E := call nat) [XSrc [7] 0] (XSrc [1; 2] 0)) [1; 7; 2].
Proof.
  eapply may_cat; [constructor; [apply may_src|constructor]|apply may_src|]. unfold interleaving. cbn.
  apply (takes_one _ [1; 7] [[]] 2 [] []). apply (takes_one _ [1] [] 7 [] [[2]]). apply (takes_one _ [] [[7]] 1 [2] []). constructor.
Qed.

Print Assumptions C88_expression. Print Assumptions C88_terminal. Print Assumptions C88_completes. Print Assumptions C88_concat_sort. Print Assumptions C88_concat_count. Print Assumptions C88_nested. Print Assumptions C88_order.
