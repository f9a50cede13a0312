(** * Proofs for C95 *)
From Coq Require Import List Bool Arith Lia SetoidList SetoidPermutation Permutation Setoid Morphisms.
From Verif Require Import MapKeySpec MapKeyModel.
Import ListNotations.
Open Scope nat_scope.

Section P.
Context {K V : Type} (geq : K -> K -> bool) (hashable : K -> bool).
Context (GE : go_equality geq).
Notation same_pair := (same_pair geq (V := V)). Notation same_map := (same_map geq (V := V)).
Notation mp := (mp K V). Notation eptr := (eptr V).

Lemma geq_sym : forall a b, geq a b = geq b a.
Proof. intros a b. destruct GE as [S _]. destruct (geq a b) eqn:E; [symmetry; auto|]. destruct (geq b a) eqn:E'; auto. apply S in E'. congruence. Qed.
Lemma geq_trans_eq : forall a b c, geq a b = true -> geq a c = geq b c.
Proof.
  intros a b c E. destruct GE as [S T]. destruct (geq b c) eqn:B; [eapply T; eauto|].
  destruct (geq a c) eqn:C; auto. rewrite <- B. symmetry. apply T with a; auto.
Qed.
(** ** Pairs up to equal keys *)
Global Instance sp_equiv : Equivalence same_pair.
Proof.
  destruct GE as [S T]. split.
  - intros [k v]. split; cbn; auto.
  - intros [k v] [k' v'] [H H']. cbn in *. split; cbn; auto. destruct H; auto.
  - intros [k v] [k' v'] [k'' v''] [H H'] [J J']. cbn in *. split; cbn; [|congruence].
    destruct H as [->|H]; auto. destruct J as [<-|J]; auto. right. eapply T; eauto.
Qed.
Lemma sm_refl : forall l, same_map l l.
Proof. intros l. unfold MapKeySpec.same_map. reflexivity. Qed.
Lemma sm_sym : forall l l', same_map l l' -> same_map l' l.
Proof. intros l l' H. unfold MapKeySpec.same_map in *. now symmetry. Qed.
Lemma sm_trans : forall a b c, same_map a b -> same_map b c -> same_map a c.
Proof. intros a b c H J. unfold MapKeySpec.same_map in *. now transitivity b. Qed.
Lemma sm_perm : forall l l', Permutation l l' -> same_map l l'.
Proof. induction 1; [apply permA_nil|apply permA_skip; auto; reflexivity|apply permA_swap|eapply permA_trans; eauto]. Qed.
Lemma sm_skip : forall p q l l', same_pair p q -> same_map l l' -> same_map (p :: l) (q :: l').
Proof. intros. now apply permA_skip. Qed.

(** ** Looking up *)
Section Any.
Context {W : Type}.
Notation hit := (@hit K W geq).
Definition dist (l : list (K * W)) : Prop := forall k, length (filter (hit k) l) <= 1.
Lemma filter_perm : forall (f : K * W -> bool) l l', Permutation l l' -> Permutation (filter f l) (filter f l').
Proof.
  induction 1; cbn; auto.
  - destruct (f x); auto.
  - destruct (f x), (f y); auto using perm_swap.
  - etransitivity; eauto.
Qed.
Lemma dist_perm : forall l l', Permutation l l' -> dist l -> dist l'.
Proof. intros l l' P D k. rewrite <- (Permutation_length (filter_perm (hit k) _ _ P)). apply D. Qed.
Lemma glook_some : forall l k (w : W), glook geq l k = Some w -> exists l1 k' l2, l = l1 ++ (k', w) :: l2 /\ geq k k' = true.
Proof.
  intros l k w. unfold glook. destruct (filter (hit k) l) as [|[k' w'] r] eqn:E; [discriminate|]. intros [= <-].
  assert (I : In (k', w') (filter (hit k) l)) by (rewrite E; cbn; auto). apply filter_In in I. destruct I as [I H].
  apply in_split in I. destruct I as (l1 & l2 & ->). cbn. exists l1, k', l2. auto.
Qed.
Lemma filter_none : forall (f : K * W -> bool) l, (forall p, In p l -> f p = false) -> filter f l = [].
Proof. induction l as [|p l IH]; cbn; intros H; auto. rewrite H by auto. apply IH. intros q I. apply H. auto. Qed.
Lemma filter_all : forall (f : K * W -> bool) l, (forall p, In p l -> f p = true) -> filter f l = l.
Proof. induction l as [|p l IH]; cbn; intros H; auto. rewrite H by auto. f_equal. apply IH. intros q I. apply H. auto. Qed.
Lemma glook_none : forall (l : list (K * W)) k, glook geq l k = None <-> (forall p, In p l -> hit k p = false).
Proof.
  intros l k. unfold glook. split.
  - intros E p I. destruct (hit k p) eqn:H; auto. assert (J : In p (filter (hit k) l)) by (apply filter_In; auto).
    destruct (filter (hit k) l); [destruct J|discriminate].
  - intros H. now rewrite filter_none.
Qed.
(** In a map nothing else is equal to an equal key. *)
Lemma dist_split : forall l1 k' w l2, dist (l1 ++ (k', w) :: l2) -> forall k p, geq k k' = true -> In p (l1 ++ l2) -> hit k p = false.
Proof.
  intros l1 k' w l2 D k p H I. destruct (hit k p) eqn:E; auto. exfalso. specialize (D k).
  rewrite (Permutation_length (filter_perm (hit k) _ ((k', w) :: l1 ++ l2) (Permutation_sym (Permutation_middle _ _ _)))) in D.
  cbn in D. unfold MapKeySpec.hit at 1 in D. cbn in D. rewrite H in D. cbn in D.
  assert (J : In p (filter (hit k) (l1 ++ l2))) by (apply filter_In; auto). destruct (filter (hit k) (l1 ++ l2)); cbn in *; [auto|lia].
Qed.
Lemma glook_mid : forall l1 k' w l2 k, dist (l1 ++ (k', w) :: l2) -> geq k k' = true -> glook geq (l1 ++ (k', w) :: l2) k = Some w.
Proof.
  intros l1 k' w l2 k D H. unfold glook. rewrite filter_app. cbn. unfold MapKeySpec.hit at 2. cbn. rewrite H.
  rewrite (filter_none _ l1); [reflexivity|]. intros p I. eapply dist_split; eauto. apply in_or_app; auto.
Qed.
Lemma gdel_mid : forall l1 k' w l2 k, dist (l1 ++ (k', w) :: l2) -> geq k k' = true -> gdel geq (l1 ++ (k', w) :: l2) k = l1 ++ l2.
Proof.
  intros l1 k' w l2 k D H. unfold gdel. rewrite filter_app. cbn. unfold MapKeySpec.hit at 2. cbn. rewrite H. cbn.
  rewrite <- filter_app. apply filter_all. intros p I. rewrite (dist_split _ _ _ _ D k p H I). auto.
Qed.
Lemma gdel_miss : forall (l : list (K * W)) k, glook geq l k = None -> gdel geq l k = l.
Proof. intros l k E. apply filter_all. intros p I. rewrite (proj1 (glook_none l k) E p I). auto. Qed.
Lemma dist_filter : forall f l, dist l -> dist (filter f l).
Proof.
  intros f l D k. etransitivity; [|apply (D k)]. clear D. induction l as [|p l IH]; cbn; auto.
  destruct (f p); cbn; destruct (hit k p); cbn; lia.
Qed.
Lemma dist_gdel : forall (l : list (K * W)) k, dist l -> dist (gdel geq l k).
Proof. intros. now apply dist_filter. Qed.
Lemma dist_gset : forall l k w, dist l -> dist (gset geq l k w).
Proof.
  intros l k w D k0. unfold gset. cbn. unfold MapKeySpec.hit at 1. cbn. destruct (geq k0 k) eqn:E; [|apply dist_gdel; auto].
  cbn. rewrite filter_none; auto. intros p I. unfold gdel in I. apply filter_In in I. destruct I as [_ I]. apply negb_true_iff in I.
  unfold MapKeySpec.hit in *. now rewrite (geq_trans_eq _ _ _ E).
Qed.
Lemma dist_nil : dist [].
Proof. intros k. cbn. lia. Qed.
End Any.

(** ** Same pairs, same lookups *)
Lemma hit_same : forall k p q, same_pair p q -> hit geq k p = hit geq k q.
Proof.
  intros k [a v] [b w] [[H|H] _]; unfold hit; cbn in *; [congruence|].
  rewrite (geq_sym k a), (geq_sym k b). now apply geq_trans_eq.
Qed.
Lemma sm_filter : forall f l l', (forall p q, same_pair p q -> f p = f q) -> same_map l l' -> same_map (filter f l) (filter f l').
Proof.
  intros f l l' F. induction 1; cbn.
  - apply permA_nil.
  - rewrite (F _ _ H). destruct (f x₂); auto. now apply sm_skip.
  - destruct (f x), (f y); try apply permA_swap; apply sm_refl.
  - eapply sm_trans; eauto.
Qed.
Lemma sm_length : forall l l', same_map l l' -> length l = length l'.
Proof. induction 1; cbn; lia. Qed.
Lemma sm_one : forall l l', same_map l l' -> length l <= 1 -> Forall2 same_pair l l'.
Proof.
  intros l l' H L. pose proof (sm_length _ _ H). destruct l as [|p [|]]; cbn in *; try lia; destruct l' as [|q [|]]; cbn in *; try lia; constructor; auto.
  apply PermutationA_decompose in H; [|apply sp_equiv]. destruct H as (l & P & E). apply Permutation_length_1_inv in P. subst. inversion E; subst; auto.
Qed.
Lemma glook_same : forall l l' k, dist l -> same_map l l' -> glook geq l k = glook geq l' k.
Proof.
  intros l l' k D H. assert (F : Forall2 same_pair (filter (hit geq k) l) (filter (hit geq k) l')).
  { apply sm_one; [|apply D]. apply sm_filter; auto. apply hit_same. }
  unfold glook. inversion F as [|p q ? ? [_ E]]; subst; auto. now rewrite E.
Qed.
Lemma gdel_same : forall l l' k, same_map l l' -> same_map (gdel geq l k) (gdel geq l' k).
Proof. intros l l' k H. apply sm_filter; auto. intros p q S. now rewrite (hit_same k p q S). Qed.
Lemma gset_same : forall l l' k v, same_map l l' -> same_map (gset geq l k v) (gset geq l' k v).
Proof. intros l l' k v H. apply sm_skip; [reflexivity|]. now apply gdel_same. Qed.

(** ** What the entries hold *)
Notation cont := (@range_loop K V).
Lemma cont_app : forall h l l', cont h (l ++ l') = cont h l ++ cont h l'.
Proof. induction l as [|[k e] l IH]; cbn; intros; auto. destruct (h e); rewrite ?IH; auto. Qed.
Lemma cont_perm : forall h l l', Permutation l l' -> Permutation (cont h l) (cont h l').
Proof.
  induction 1 as [|[k e] l l' P IH|[k e] [k' e'] l|]; cbn; auto.
  - destruct (h e); auto.
  - destruct (h e), (h e'); auto using perm_swap.
  - etransitivity; eauto.
Qed.
Lemma cont_filter : forall h k l, filter (hit geq k) (cont h l) = cont h (filter (hit geq k) l).
Proof.
  induction l as [|[a e] l IH]; cbn; auto. unfold hit at 2. cbn. destruct (h e) eqn:E; cbn; [| |unfold hit at 1; cbn]; destruct (geq k a); cbn; rewrite ?E, ?IH; auto.
Qed.
Lemma cont_gdel : forall h k l, gdel geq (cont h l) k = cont h (gdel geq l k).
Proof.
  unfold gdel. induction l as [|[a e] l IH]; cbn; auto. unfold hit at 2. cbn. destruct (h e) eqn:E; cbn; [| |unfold hit at 1; cbn]; destruct (geq k a); cbn; rewrite ?E, ?IH; auto.
Qed.
Lemma cont_len : forall h l, length (cont h l) <= length l.
Proof. induction l as [|[k e] l IH]; cbn; auto. destruct (h e); cbn; lia. Qed.
Lemma cont_dist : forall h l, dist l -> dist (cont h l).
Proof. intros h l D k. rewrite cont_filter. etransitivity; [apply cont_len|apply D]. Qed.
Lemma cont_look : forall h l k, dist l -> glook geq (cont h l) k = match glook geq l k with Some e => match h e with EVal v => Some v | _ => None end | None => None end.
Proof.
  intros h l k D. unfold glook. rewrite cont_filter. specialize (D k). destruct (filter (hit geq k) l) as [|[a e] [|]]; cbn in *; try lia; auto.
  destruct (h e); auto.
Qed.
Lemma cont_ext : forall h h' l, (forall k e, In (k, e) l -> h e = h' e) -> cont h l = cont h' l.
Proof. induction l as [|[k e] l IH]; cbn; intros H; auto. rewrite (H k e) by auto. destruct (h' e); rewrite IH; eauto. Qed.
Notation names l := (map snd l).
Definition hset (h : nat -> eptr) e x : nat -> eptr := fun e' => if Nat.eqb e' e then x else h e'.
Lemma hset_out : forall h e x l, ~ In e (names l) -> cont (hset h e x) l = cont h l.
Proof. intros h e x l N. apply cont_ext. intros k e' I. unfold hset. destruct (Nat.eqb_spec e' e); auto. subst. exfalso. apply N. apply in_map_iff. exists (k, e). auto. Qed.
(** Writing an entry of a key. *)
Lemma cont_write : forall h e x l k k', NoDup (names l) -> dist l -> In (k', e) l -> geq k k' = true ->
  same_map (cont (hset h e x) l) (match x with EVal v => gset geq (cont h l) k v | _ => gdel geq (cont h l) k end).
Proof.
  intros h e x l k k' ND D I H. apply in_split in I. destruct I as (l1 & l2 & ->).
  rewrite map_app in ND. cbn in ND. apply NoDup_remove in ND. destruct ND as [ND NI]. rewrite in_app_iff in NI.
  assert (E : gdel geq (cont h (l1 ++ (k', e) :: l2)) k = cont h l1 ++ cont h l2) by (rewrite cont_gdel, (gdel_mid _ _ _ _ _ D H); apply cont_app).
  rewrite cont_app. cbn [range_loop]. unfold hset at 2. rewrite Nat.eqb_refl. rewrite !hset_out by tauto.
  destruct x; [rewrite E; apply sm_refl..|]. unfold gset. rewrite E.
  eapply sm_trans; [apply sm_perm; symmetry; apply Permutation_middle|]. apply sm_skip; [|apply sm_refl]. split; cbn; auto. right. now rewrite geq_sym.
Qed.

(** ** The invariant *)
Definition view (r : list (K * nat)) (a : bool) (d : option (list (K * nat))) : list (K * nat) := if a then entries d else r.
Definition samek (a b : K) : Prop := a = b \/ geq a b = true.
Lemma samek_geq : forall k a b, geq k a = true -> samek a b -> geq k b = true.
Proof. intros k a b H [<-|E]; auto. destruct GE as [_ T]. eapply T; eauto. Qed.
Lemma geq_self : forall a b, geq a b = true -> geq a a = true.
Proof. intros a b E. destruct GE as [S T]. eapply T; [exact E|]. auto. Qed.
Lemma in_glook : forall {W} (l : list (K * W)) k k' e, dist l -> In (k', e) l -> geq k k' = true -> glook geq l k = Some e.
Proof. intros W l k k' e D I H. apply in_split in I. destruct I as (l1 & l2 & ->). now apply glook_mid. Qed.
Lemma glook_in : forall {W} (l : list (K * W)) k e, glook geq l k = Some e -> exists k', In (k', e) l /\ geq k k' = true.
Proof. intros W l k e E. apply glook_some in E. destruct E as (l1 & k' & l2 & -> & H). exists k'. split; auto. apply in_or_app. cbn. auto. Qed.
Lemma dist_head : forall {W} (l : list (K * W)) k e, dist ((k, e) :: l) -> glook geq l k = None.
Proof.
  intros W l k e D. apply glook_none. intros p I. destruct (hit geq k p) eqn:H; auto.
  rewrite <- H. eapply (dist_split [] k e l); cbn; eauto. eapply geq_self; exact H.
Qed.
Lemma dist_tail : forall {W} (l : list (K * W)) p, dist (p :: l) -> dist l.
Proof. intros W l p D k. specialize (D k). cbn in D. destruct (hit geq k p); cbn in D; lia. Qed.
Lemma in_names : forall (l : list (K * nat)) k e, In (k, e) l -> In e (names l).
Proof. intros. apply in_map_iff. exists (k, e). auto. Qed.

Record inv (h : nat -> eptr) (n : nat) (r : list (K * nat)) (a : bool) (d : option (list (K * nat))) (A : list (K * V)) : Prop := {
  i_dm : a = false -> d = None;
  i_dm' : a = true -> d <> None;
  i_rd : dist r; i_dd : dist (entries d);
  i_rn : NoDup (names r); i_dn : NoDup (names (entries d));
  i_lt : forall e, In e (names r) \/ In e (names (entries d)) -> e < n;
  i_hash : forall k e, In (k, e) r \/ In (k, e) (entries d) -> hashable k = true;
  i_exp : forall k e, In (k, e) r -> h e = EExp -> a = true /\ ~ In e (names (entries d)) /\ glook geq (entries d) k = None;
  i_in : forall k e, In (k, e) r -> h e <> EExp -> a = true -> exists k', samek k k' /\ In (k', e) (entries d);
  i_nexp : forall k e, In (k, e) (entries d) -> h e <> EExp;
  i_cont : same_map (cont h (view r a d)) A
}.
Lemma inv_zero : inv (fun _ => ENil) 0 [] false None [].
Proof.
  split; cbn; auto using dist_nil; try discriminate; try tauto; try constructor.
Qed.
Lemma inv_same : forall h n r a d A B, inv h n r a d A -> same_map A B -> inv h n r a d B.
Proof. intros h n r a d A B I S. destruct I. split; auto. eapply sm_trans; eauto. Qed.
Lemma view_dist : forall h n r a d A, inv h n r a d A -> dist (view r a d).
Proof. intros. unfold view. destruct a; apply H. Qed.
Lemma view_names : forall h n r a d A, inv h n r a d A -> NoDup (names (view r a d)).
Proof. intros. unfold view. destruct a; apply H. Qed.
(** Lookups *)
Lemma look_A : forall h n r a d A k, inv h n r a d A ->
  glook geq A k = match glook geq (view r a d) k with Some e => match h e with EVal v => Some v | _ => None end | None => None end.
Proof.
  intros h n r a d A k I. rewrite <- cont_look by (eapply view_dist; eauto). symmetry. apply glook_same; [|apply I].
  apply cont_dist. eapply view_dist; eauto.
Qed.
Lemma hit_read : forall h n r a d A k e, inv h n r a d A -> glook geq r k = Some e -> h e <> EExp ->
  exists k', In (k', e) (view r a d) /\ geq k k' = true.
Proof.
  intros h n r a d A k e I L X. apply glook_in in L. destruct L as (k1 & J & G). unfold view. destruct a; [|eauto].
  destruct (i_in _ _ _ _ _ _ I k1 e J X eq_refl) as (k' & S & J'). exists k'. split; auto. eapply samek_geq; eauto.
Qed.
Lemma hit_dirty : forall h n r a d A k e, inv h n r a d A -> glook geq (entries d) k = Some e ->
  a = true /\ h e <> EExp /\ exists k', In (k', e) (view r a d) /\ geq k k' = true.
Proof.
  intros h n r a d A k e I L. destruct (glook_in _ _ _ L) as (k' & J & G). destruct a.
  - repeat split; eauto. eapply i_nexp; eauto.
  - rewrite (i_dm _ _ _ _ _ _ I eq_refl) in J. destruct J.
Qed.
Lemma hit_A : forall h n r a d A k k' e, inv h n r a d A -> In (k', e) (view r a d) -> geq k k' = true ->
  glook geq A k = match h e with EVal v => Some v | _ => None end.
Proof. intros h n r a d A k k' e I J G. rewrite (look_A _ _ _ _ _ _ _ I). now rewrite (in_glook _ _ _ _ (view_dist _ _ _ _ _ _ I) J G). Qed.
Lemma exp_look : forall h n r a d A k e, inv h n r a d A -> glook geq r k = Some e -> h e = EExp ->
  a = true /\ ~ In e (names (entries d)) /\ glook geq (entries d) k = None /\ glook geq A k = None.
Proof.
  intros h n r a d A k e I L X. apply glook_in in L. destruct L as (k1 & J & G). destruct (i_exp _ _ _ _ _ _ I k1 e J X) as (-> & N & L).
  assert (L' : glook geq (entries d) k = None).
  { apply glook_none. intros p Ip. rewrite <- ((proj1 (glook_none _ _) L) p Ip). unfold hit. now apply geq_trans_eq. }
  repeat split; auto. rewrite (look_A _ _ _ _ _ _ _ I). cbn. now rewrite L'.
Qed.
Lemma miss_A : forall h n r a d A k, inv h n r a d A -> glook geq r k = None -> glook geq (entries d) k = None -> glook geq A k = None.
Proof. intros h n r a d A k I L L'. rewrite (look_A _ _ _ _ _ _ _ I). unfold view. destruct a; [now rewrite L'|now rewrite L]. Qed.
(** A present entry is written. *)
Definition put_spec (A : list (K * V)) (k : K) (x : eptr) : list (K * V) := match x with EVal v => gset geq A k v | _ => gdel geq A k end.
Lemma put_same : forall A B k x, same_map A B -> same_map (put_spec A k x) (put_spec B k x).
Proof. intros A B k x S. destruct x; cbn; auto using gdel_same, gset_same. Qed.
Lemma inv_write : forall h n r a d A k k' e x, inv h n r a d A -> In (k', e) (view r a d) -> geq k k' = true -> h e <> EExp -> x <> EExp ->
  inv (hset h e x) n r a d (put_spec A k x).
Proof.
  intros h n r a d A k k' e x I J G HX X. split; try apply I.
  - intros k0 e0 J0 E0. unfold hset in E0. destruct (Nat.eqb_spec e0 e); [congruence|]. eapply i_exp; eauto.
  - intros k0 e0 J0 E0 Ea. unfold hset in E0. destruct (Nat.eqb_spec e0 e); [subst; eapply i_in; eauto|eapply i_in; eauto].
  - intros k0 e0 J0 E0. unfold hset in E0. destruct (Nat.eqb_spec e0 e); [congruence|]. eapply i_nexp; eauto.
  - eapply sm_trans; [eapply cont_write; eauto; [eapply view_names|eapply view_dist]; eauto|].
    apply (put_same _ _ k x (i_cont _ _ _ _ _ _ I)).
Qed.
(** A new pair in the dirty map: a new entry, or an expunged one that comes back. *)
Lemma inv_put : forall h n n' r d A k e x, inv h n r true (Some d) A -> hashable k = true -> ~ In e (names d) -> glook geq d k = None ->
  (forall k0, In (k0, e) r -> geq k k0 = true) -> (forall k0 e0, In (k0, e0) r -> e0 <> e -> geq k0 k = false) ->
  e < n' -> n <= n' -> x <> EExp ->
  inv (hset h e x) n' r true (Some (gset geq d k e)) (put_spec A k x).
Proof.
  intros h n n' r d A k e x I HK NI L R1 R2 LT LE X.
  assert (GD : gdel geq d k = d) by now apply gdel_miss. unfold gset. rewrite GD.
  split; cbn [entries view]; try apply I; try discriminate.
  - rewrite <- GD. apply (dist_gset d k e). apply (i_dd _ _ _ _ _ _ I).
  - cbn. constructor; auto. apply (i_dn _ _ _ _ _ _ I).
  - cbn. intros e0 [J|[<-|J]]; [|auto|]; (eapply Nat.lt_le_trans; [apply (i_lt _ _ _ _ _ _ I); cbn; auto|auto]).
  - cbn. intros k0 e0 [J|[[= <- <-]|J]]; auto; eapply (i_hash _ _ _ _ _ _ I); cbn; eauto.
  - intros k0 e0 J E0. unfold hset in E0. destruct (Nat.eqb_spec e0 e) as [->|NE]; [congruence|].
    destruct (i_exp _ _ _ _ _ _ I k0 e0 J E0) as (_ & N & L0). cbn in *. repeat split; auto.
    + intros [E|E]; auto.
    + apply glook_none. intros p [<-|Ip]; [unfold hit; cbn; eapply R2; eauto|now apply (proj1 (glook_none _ _) L0)].
  - intros k0 e0 J E0 _. unfold hset in E0. destruct (Nat.eqb_spec e0 e) as [->|NE].
    + exists k. cbn. split; auto. right. rewrite geq_sym. auto.
    + destruct (i_in _ _ _ _ _ _ I k0 e0 J E0 eq_refl) as (k' & S & J'). exists k'. cbn in *. auto.
  - intros k0 e0 J E0. unfold hset in E0. cbn in J. destruct (Nat.eqb_spec e0 e) as [->|NE]; [congruence|].
    destruct J as [[= _ E]|J]; [congruence|]. eapply (i_nexp _ _ _ _ _ _ I); cbn; eauto.
  - cbn [range_loop]. unfold hset at 1. rewrite Nat.eqb_refl. rewrite hset_out by auto.
    pose proof (i_cont _ _ _ _ _ _ I) as C. cbn in C.
    assert (E : gdel geq (cont h d) k = cont h d) by (rewrite cont_gdel; now rewrite GD).
    destruct x; [|congruence|]; cbn; (eapply sm_trans; [|first [apply (gdel_same _ _ k C)|apply (gset_same _ _ k v C)]]); unfold gset; rewrite E; apply sm_refl.
Qed.
(** The dirty map becomes the read map. *)
Lemma inv_promote : forall h n r d A, inv h n r true d A -> inv h n (entries d) false None A.
Proof.
  intros h n r d A I. split; cbn; try apply I; auto using dist_nil, NoDup_nil; try discriminate; try tauto.
  - intros e [J|[]]. apply (i_lt _ _ _ _ _ _ I). auto.
  - intros k e [J|[]]. eapply (i_hash _ _ _ _ _ _ I); eauto.
  - intros k e J E. exfalso. eapply (i_nexp _ _ _ _ _ _ I); eauto.
Qed.

(** ** Copying the live entries *)
Definition isval (h : nat -> eptr) (p : K * nat) : bool := match h (snd p) with EVal _ => true | _ => false end.
Lemma isval_ext : forall h h' l, (forall k e, In (k, e) l -> h e = h' e) -> filter (isval h) l = filter (isval h') l.
Proof. induction l as [|[k e] l IH]; cbn; intros H; auto.
  assert (E : isval h (k, e) = isval h' (k, e)) by (unfold isval; cbn; rewrite (H k e); auto). rewrite E, IH; eauto. Qed.
Lemma copy_spec : forall l b h n r a d s, NoDup (names l) -> dist (l ++ d) -> (forall k e, In (k, e) l -> hashable k = true) ->
  exists h' d', copy_live geq hashable l (Mp b h n r a (Some d) s) = (Mp b h' n r a (Some d') s, Ret tt) /\
    Permutation d' (filter (isval h) l ++ d) /\
    (forall e, h' e = if existsb (Nat.eqb e) (names l) then match h e with ENil => EExp | x => x end else h e).
Proof.
  induction l as [|[k e] l IH]; intros b h n r a d s ND D HK.
  - exists h, d. repeat split; auto.
  - cbn in ND. apply NoDup_cons_iff in ND. destruct ND as [NI ND].
    assert (NX : existsb (Nat.eqb e) (names l) = false).
    { apply not_true_is_false. intros X. apply existsb_exists in X. destruct X as (x & J & X). apply Nat.eqb_eq in X. subst x. auto. }
    assert (OUT : forall h0, (forall e0, e0 <> e -> h0 e0 = h e0) -> filter (isval h0) l = filter (isval h) l).
    { intros h0 E. apply isval_ext. intros k0 e0 I. apply E. intros ->. apply NI. eapply in_names; eauto. }
    cbn [copy_live]. unfold bind at 1, eload. cbn [hp]. destruct (h e) eqn:E.
    + (* nil becomes expunged *)
      unfold bind at 1, estore. cbn.
      destruct (IH b (hset h e EExp) n r a d s ND (dist_tail _ _ D)) as (h' & d' & C & P & H'); [intros; eapply HK; cbn; eauto|].
      exists h', d'. split; [exact C|]. split.
      * cbn. unfold isval at 1. cbn. rewrite E. rewrite <- (OUT (hset h e EExp)); auto. intros e0 NE. unfold hset. apply Nat.eqb_neq in NE. now rewrite NE.
      * intros e0. rewrite H'. cbn. unfold hset. destruct (Nat.eqb_spec e0 e) as [->|NE].
        -- rewrite NX. cbn. now rewrite E.
        -- reflexivity.
    + unfold bind at 1, ret. cbn.
      destruct (IH b h n r a d s ND (dist_tail _ _ D)) as (h' & d' & C & P & H'); [intros; eapply HK; cbn; eauto|].
      exists h', d'. split; [exact C|]. split.
      * cbn. unfold isval at 1. cbn. rewrite E. auto.
      * intros e0. rewrite H'. cbn. destruct (Nat.eqb_spec e0 e) as [->|NE]; auto. rewrite NX. cbn. now rewrite E.
    + unfold bind at 1, dirty_put, bind at 1, get_dirty. cbn [dm]. rewrite (HK k e) by (cbn; auto). unfold set_dirty. cbn.
      assert (GD : gdel geq d k = d).
      { apply gdel_miss. pose proof (dist_head _ _ _ D) as L. apply glook_none. intros p I. apply (proj1 (glook_none _ _) L). apply in_or_app. auto. }
      unfold gset. rewrite GD.
      destruct (IH b h n r a ((k, e) :: d) s ND) as (h' & d' & C & P & H').
      { eapply dist_perm; [|exact D]. cbn. apply Permutation_middle. }
      { intros; eapply HK; cbn; eauto. }
      exists h', d'. split; [exact C|]. split.
      * cbn. unfold isval at 1. cbn. rewrite E. rewrite P. cbn. symmetry. apply Permutation_middle.
      * intros e0. rewrite H'. cbn. destruct (Nat.eqb_spec e0 e) as [->|NE]; auto. rewrite NX. cbn. now rewrite E.
Qed.
Lemma cont_isval : forall h l, cont h (filter (isval h) l) = cont h l.
Proof. induction l as [|[k e] l IH]; cbn; auto. unfold isval at 1. cbn. destruct (h e) eqn:E; cbn; rewrite ?E, IH; auto. Qed.
(** The first new key makes a dirty map with the same contents. *)
Lemma inv_dirty : forall h n r A l d' h', inv h n r false None A -> Permutation l r -> Permutation d' (filter (isval h) l) ->
  (forall e, h' e = if existsb (Nat.eqb e) (names l) then match h e with ENil => EExp | x => x end else h e) ->
  inv h' n r true (Some d') A.
Proof.
  intros h n r A l d' h' I PL PD H'.
  assert (NE : forall k e, In (k, e) r -> h e <> EExp).
  { intros k e J E. destruct (i_exp _ _ _ _ _ _ I k e J E) as (X & _). discriminate. }
  assert (IND : forall k e, In (k, e) d' <-> In (k, e) r /\ isval h (k, e) = true).
  { intros k e. split; intros J.
    - apply (Permutation_in _ PD) in J. apply filter_In in J. destruct J as [J J']. split; auto. eapply Permutation_in; eauto.
    - apply (Permutation_in _ (Permutation_sym PD)). apply filter_In. split; [|apply J]. eapply Permutation_in; [symmetry; eauto|apply J]. }
  assert (INN : forall k e, In (k, e) r -> h' e = match h e with ENil => EExp | x => x end).
  { intros k e J. rewrite H'. replace (existsb (Nat.eqb e) (names l)) with true; auto. symmetry. apply existsb_exists. exists e. split; [|apply Nat.eqb_refl].
    apply in_names with k. eapply Permutation_in; [symmetry; eauto|auto]. }
  assert (DD : dist d') by (eapply dist_perm; [symmetry; exact PD|]; apply dist_filter; eapply dist_perm; [symmetry; eauto|apply I]).
  split; cbn [entries view]; try apply I; auto; try discriminate.
  - eapply Permutation_NoDup; [apply Permutation_map; symmetry; exact PD|].
    assert (N : NoDup (names l)) by (eapply Permutation_NoDup; [apply Permutation_map; symmetry; exact PL|apply I]).
    clear -N. induction l as [|p l IH]; cbn in *; [constructor|]. apply NoDup_cons_iff in N. destruct N as [N N']. destruct (isval h p); cbn; auto.
    constructor; auto. intros J. apply N. apply in_map_iff in J. destruct J as (q & <- & J). apply filter_In in J. apply in_map. apply J.
  - intros e [J|J]; [apply (i_lt _ _ _ _ _ _ I); auto|]. apply in_map_iff in J. destruct J as ([k e'] & E & J). cbn in E. subst e'. apply IND in J.
    apply (i_lt _ _ _ _ _ _ I). left. eapply in_names. apply J.
  - intros k e [J|J]; [|apply IND in J; destruct J as [J _]]; eapply (i_hash _ _ _ _ _ _ I); eauto.
  - intros k e J E. rewrite (INN k e J) in E. split; auto. split.
    + intros N. apply in_map_iff in N. destruct N as ([k2 e2] & Ee & N). cbn in Ee. subst e2. apply IND in N. destruct N as [_ N]. unfold isval in N. cbn in N. destruct (h e); congruence.
    + apply glook_none. intros [k2 e2] N. destruct (hit geq k (k2, e2)) eqn:HH; auto. exfalso. unfold hit in HH. cbn in HH. apply IND in N. destruct N as [N V2].
      assert (e2 = e).
      { pose proof (in_glook r k k2 e2 (i_rd _ _ _ _ _ _ I) N HH) as A1. pose proof (in_glook r k k e (i_rd _ _ _ _ _ _ I) J (geq_self _ _ HH)) as A2. congruence. }
      subst e2. unfold isval in V2. cbn in V2. destruct (h e); congruence.
  - intros k e J E _. rewrite (INN k e J) in E. exists k. split; [left; auto|]. apply IND. split; auto. unfold isval. cbn. destruct (h e) eqn:X; congruence.
  - intros k e J. apply IND in J. destruct J as [J W]. rewrite (INN k e J). unfold isval in W. cbn in W. destruct (h e); congruence.
  - eapply sm_trans; [|apply (i_cont _ _ _ _ _ _ I)]. cbn. apply sm_perm.
    rewrite (cont_perm h' _ _ PD). rewrite (cont_ext h' h).
    + rewrite cont_isval. now apply cont_perm.
    + intros k e J. apply filter_In in J. destruct J as [J W]. rewrite (INN k e); [|eapply Permutation_in; eauto]. unfold isval in W. cbn in W. destruct (h e); congruence.
Qed.

(** ** The parts of a call *)
Lemma inv_del : forall h n r d A k, inv h n r true (Some d) A -> glook geq r k = None -> inv h n r true (Some (gdel geq d k)) (gdel geq A k).
Proof.
  intros h n r d A k I L. assert (SUB : forall p, In p (gdel geq d k) -> In p d) by (intros p J; apply filter_In in J; apply J).
  assert (SUBN : forall e, In e (names (gdel geq d k)) -> In e (names d)) by (intros e J; apply in_map_iff in J; destruct J as (p & <- & J); apply in_map; auto).
  split; cbn [entries view]; try apply I; try discriminate.
  - apply dist_gdel. apply (i_dd _ _ _ _ _ _ I).
  - pose proof (i_dn _ _ _ _ _ _ I) as N. cbn in N. clear -N. induction d as [|p d IH]; cbn in *; [constructor|]. apply NoDup_cons_iff in N. destruct N as [N N'].
    destruct (negb (hit geq k p)); cbn; auto. constructor; auto. intros J. apply N. apply in_map_iff in J. destruct J as (q & <- & J). apply filter_In in J. apply in_map. apply J.
  - intros e [J|J]; apply (i_lt _ _ _ _ _ _ I); cbn; auto.
  - intros k0 e [J|J]; eapply (i_hash _ _ _ _ _ _ I); cbn; eauto.
  - intros k0 e J E. destruct (i_exp _ _ _ _ _ _ I k0 e J E) as (_ & N & L0). cbn in *. repeat split; auto.
    apply glook_none. intros p Jp. apply (proj1 (glook_none _ _) L0). auto.
  - intros k0 e J E _. destruct (i_in _ _ _ _ _ _ I k0 e J E eq_refl) as (k' & S & J'). exists k'. split; auto. apply filter_In. split; auto.
    apply negb_true_iff. unfold hit. cbn. destruct (geq k k') eqn:G; auto. exfalso.
    assert (X : geq k k0 = true). { eapply samek_geq; [exact G|]. destruct S as [->|S]; [left; auto|right; rewrite geq_sym; auto]. }
    apply (proj1 (glook_none _ _) L) in J. unfold hit in J. cbn in J. congruence.
  - intros k0 e J. apply (i_nexp _ _ _ _ _ _ I k0). cbn. auto.
  - eapply sm_trans; [|apply gdel_same; apply (i_cont _ _ _ _ _ _ I)]. unfold view. cbn [entries]. rewrite cont_gdel. apply sm_refl.
Qed.
Lemma inv_out : forall h n r a d A e x, inv h n r a d A -> ~ In e (names r) -> ~ In e (names (entries d)) -> inv (hset h e x) n r a d A.
Proof.
  intros h n r a d A e x I N N'.
  assert (E1 : forall k e0, In (k, e0) r -> hset h e x e0 = h e0) by (intros k e0 J; unfold hset; destruct (Nat.eqb_spec e0 e); auto; subst; destruct N; eapply in_names; eauto).
  assert (E2 : forall k e0, In (k, e0) (entries d) -> hset h e x e0 = h e0) by (intros k e0 J; unfold hset; destruct (Nat.eqb_spec e0 e); auto; subst; destruct N'; eapply in_names; eauto).
  split; try apply I.
  - intros k e0 J. rewrite (E1 k e0 J). apply (i_exp _ _ _ _ _ _ I k e0 J).
  - intros k e0 J. rewrite (E1 k e0 J). apply (i_in _ _ _ _ _ _ I k e0 J).
  - intros k e0 J. rewrite (E2 k e0 J). apply (i_nexp _ _ _ _ _ _ I k e0 J).
  - rewrite (cont_ext _ h); [apply I|]. unfold view. destruct a; eauto.
Qed.
Lemma miss_spec : forall b h n r d A s, inv h n r true d A ->
  exists r' a' d' s', missLocked (Mp b h n r true d s) = (Mp b h n r' a' d' s', Ret tt) /\ inv h n r' a' d' A /\
    ((r' = r /\ a' = true /\ d' = d) \/ (r' = entries d /\ a' = false /\ d' = None)).
Proof.
  intros b h n r d A s I. unfold missLocked, bind, get_misses, set_misses, get_dirty, set_read, set_dirty, ret.
  cbn -[Nat.ltb]. destruct (S s <? length (entries d)).
  - eexists _, _, _, _. split; [reflexivity|]. split; [exact I|]. auto.
  - eexists _, _, _, _. split; [reflexivity|]. split; [eapply inv_promote; exact I|]. auto.
Qed.
Definition any_order (ord : list (K * nat) -> list (K * nat)) : Prop := forall l, Permutation (ord l) l.
Lemma insert_spec : forall ord b h n r a d s A k v, any_order ord -> inv h n r a d A -> hashable k = true ->
  glook geq r k = None -> glook geq (entries d) k = None ->
  exists h' n' d', insert_new geq hashable ord k v (Mp b h n r a d s) = (Mp b h' n' r true d' s, Ret tt) /\ inv h' n' r true d' (gset geq A k v).
Proof.
  intros ord b h n r a d s A k v O I HK L L'.
  assert (AM : exists h1 d1, (if a then ret tt else (bind (dirtyLocked geq hashable ord) (fun _ => bind get_read (fun l => set_read l true)))) (Mp b h n r a d s)
      = (Mp b h1 n r true (Some d1) s, Ret tt) /\ inv h1 n r true (Some d1) A /\ glook geq d1 k = None).
  { destruct a.
    - destruct d as [d|]; [|destruct (i_dm' _ _ _ _ _ _ I eq_refl eq_refl)]. exists h, d. cbn in L'. split; [reflexivity|]. split; auto.
    - pose proof (i_dm _ _ _ _ _ _ I eq_refl) as ->.
      unfold dirtyLocked, bind at 1 2, get_dirty. cbn [dm]. unfold bind at 1, get_read at 1. cbn [rm]. unfold bind at 1, set_dirty. cbn.
      destruct (copy_spec (ord r) b h n r false [] s) as (h1 & d1 & C & P & H1).
      + eapply Permutation_NoDup; [apply Permutation_map; symmetry; apply O|apply I].
      + rewrite app_nil_r. eapply dist_perm; [symmetry; apply O|apply I].
      + intros k0 e J. eapply (i_hash _ _ _ _ _ _ I). left. eapply Permutation_in; [apply O|exact J].
      + rewrite C. exists h1, d1. rewrite app_nil_r in P. split; [reflexivity|]. split; [eapply inv_dirty; eauto|].
        apply glook_none. intros p J. apply (proj1 (glook_none _ _) L). apply (Permutation_in _ P) in J. apply filter_In in J. eapply Permutation_in; [apply O|apply J]. }
  destruct AM as (h1 & d1 & E & I1 & L1). unfold insert_new. unfold bind at 1, amended. cbn [am]. unfold bind at 1. rewrite E.
  unfold bind at 1, newEntry. cbn. unfold dirty_put, bind, get_dirty. cbn. rewrite HK. unfold set_dirty. cbn.
  eexists _, _, _. split; [reflexivity|]. apply (inv_put h1 n (S n) r d1 A k n (EVal v)); auto; try discriminate.
  - intros J. assert (n < n); [|lia]. apply (i_lt _ _ _ _ _ _ I1). cbn. auto.
  - intros k0 J. exfalso. assert (n < n); [|lia]. apply (i_lt _ _ _ _ _ _ I1). left. eapply in_names; eauto.
  - intros k0 e0 J _. rewrite geq_sym. apply (proj1 (glook_none _ _) L (k0, e0)). auto.
Qed.
Lemma unexp_spec : forall b h n r a d s A k e, inv h n r a d A -> hashable k = true -> glook geq r k = Some e ->
  exists h' d', unexpunge geq hashable k e (Mp b h n r a d s) = (Mp b h' n r a d' s, Ret tt) /\ inv h' n r a d' A /\ h' e <> EExp /\
    (h e <> EExp -> h' = h /\ d' = d) /\ (h e = EExp -> h' e = ENil).
Proof.
  intros b h n r a d s A k e I HK L. unfold unexpunge, bind at 1, eload. cbn. destruct (h e) eqn:E.
  - exists h, d. split; [reflexivity|]. split; [exact I|]. repeat split; auto; congruence.
  - destruct (exp_look _ _ _ _ _ _ _ _ I L E) as (-> & N & L1 & LA). destruct d as [d|]; [|destruct (i_dm' _ _ _ _ _ _ I eq_refl eq_refl)].
    unfold bind at 1, estore. cbn. unfold dirty_put, bind, get_dirty. cbn. rewrite HK. unfold set_dirty. cbn.
    exists (hset h e ENil), (Some (gset geq d k e)). split; [reflexivity|]. split; [|split; [|split; [congruence|]]].
    + eapply inv_same; [apply (inv_put h n n r d A k e ENil); auto; try discriminate|].
      * intros k0 J. destruct (glook_in _ _ _ L) as (k1 & J1 & G). pose proof (i_rn _ _ _ _ _ _ I) as ND.
        assert (k0 = k1); [|congruence]. clear -ND J J1. induction r as [|[k2 e2] r IH]; [destruct J|]. cbn in ND. apply NoDup_cons_iff in ND. destruct ND as [N0 N1].
        destruct J as [[= -> ->]|J], J1 as [[= J1]|J1]; subst; auto; exfalso; apply N0; eapply in_names; eauto.
      * intros k0 e0 J NE. destruct (geq k0 k) eqn:G; auto. exfalso. apply NE.
        destruct (glook_in _ _ _ L) as (k1 & J1 & G1). assert (G2 : geq k0 k1 = true) by (destruct GE as [_ T]; eapply T; eauto).
        pose proof (in_glook r k0 k1 e (i_rd _ _ _ _ _ _ I) J1 G2) as A1. pose proof (in_glook r k0 k0 e0 (i_rd _ _ _ _ _ _ I) J (geq_self _ _ G)) as A2. congruence.
      * apply (i_lt _ _ _ _ _ _ I). left. destruct (glook_in _ _ _ L) as (k1 & J1 & _). eapply in_names; eauto.
      * cbn. rewrite gdel_miss by auto. apply sm_refl.
    + unfold hset. rewrite Nat.eqb_refl. discriminate.
    + intros _. unfold hset. rewrite Nat.eqb_refl. auto.
  - exists h, d. split; [reflexivity|]. split; [exact I|]. repeat split; auto; congruence.
Qed.

(** ** The calls *)
Definition wp {A} (c : @M K V A) (m : mp) (Q : mp -> A -> Prop) : Prop := exists m' a, c m = (m', Ret a) /\ Q m' a.
Lemma wp_of : forall {A} (c : @M K V A) m m' a (Q : mp -> A -> Prop), c m = (m', Ret a) -> Q m' a -> wp c m Q.
Proof. intros. exists m', a. auto. Qed.
Lemma wp_bind : forall {A B} (c : M A) (f : A -> M B) m Q, wp c m (fun m' a => wp (f a) m' Q) -> wp (bind c f) m Q.
Proof. intros A B c f m Q (m' & a & E & m2 & b & E2 & H). exists m2, b. split; auto. unfold bind. now rewrite E. Qed.
Lemma wp_ret : forall {A} (a : A) m (Q : mp -> A -> Prop), Q m a -> wp (ret a) m Q.
Proof. intros. eapply wp_of; [reflexivity|auto]. Qed.
Lemma wp_lock : forall h n r a d s (Q : mp -> unit -> Prop), Q (Mp true h n r a d s) tt -> wp lock (Mp false h n r a d s) Q.
Proof. intros. eapply wp_of; [reflexivity|auto]. Qed.
Lemma wp_unlock : forall b h n r a d s (Q : mp -> unit -> Prop), Q (Mp false h n r a d s) tt -> wp unlock (Mp b h n r a d s) Q.
Proof. intros. eapply wp_of; [reflexivity|auto]. Qed.
Lemma wp_amended : forall b h n r a d s (Q : mp -> bool -> Prop), Q (Mp b h n r a d s) a -> wp amended (Mp b h n r a d s) Q.
Proof. intros. eapply wp_of; [reflexivity|auto]. Qed.
Lemma wp_eload : forall e b h n r a d s (Q : mp -> eptr -> Prop), Q (Mp b h n r a d s) (h e) -> wp (eload e) (Mp b h n r a d s) Q.
Proof. intros. eapply wp_of; [reflexivity|auto]. Qed.
Lemma wp_estore : forall e x b h n r a d s (Q : mp -> unit -> Prop), Q (Mp b (hset h e x) n r a d s) tt -> wp (estore e x) (Mp b h n r a d s) Q.
Proof. intros. eapply wp_of; [reflexivity|auto]. Qed.
Lemma wp_look_read : forall k b h n r a d s (Q : mp -> option nat -> Prop), hashable k = true -> Q (Mp b h n r a d s) (glook geq r k) -> wp (look_read geq hashable k) (Mp b h n r a d s) Q.
Proof. intros. eapply wp_of; [unfold look_read, bind, get_read, lookup; cbn; rewrite H; reflexivity|auto]. Qed.
Lemma wp_look_dirty : forall k b h n r a d s (Q : mp -> option nat -> Prop), hashable k = true -> Q (Mp b h n r a d s) (glook geq (entries d) k) -> wp (look_dirty geq hashable k) (Mp b h n r a d s) Q.
Proof. intros. eapply wp_of; [unfold look_dirty, bind, get_dirty, lookup; cbn; rewrite H; reflexivity|auto]. Qed.
Lemma wp_dirty_del : forall k b h n r a d s (Q : mp -> unit -> Prop), hashable k = true -> Q (Mp b h n r a (Some (gdel geq d k)) s) tt -> wp (dirty_del geq hashable k) (Mp b h n r a (Some d) s) Q.
Proof. intros. eapply wp_of; [unfold dirty_del, bind, get_dirty; cbn; rewrite H; reflexivity|auto]. Qed.
Lemma wp_miss : forall b h n r d A s (Q : mp -> unit -> Prop), inv h n r true d A ->
  (forall r' a' d' s', inv h n r' a' d' A -> ((r' = r /\ a' = true /\ d' = d) \/ (r' = entries d /\ a' = false /\ d' = None)) -> Q (Mp b h n r' a' d' s') tt) ->
  wp missLocked (Mp b h n r true d s) Q.
Proof. intros b h n r d A s Q I H. destruct (miss_spec b h n r d A s I) as (r' & a' & d' & s' & E & I' & C). eapply wp_of; eauto. Qed.
Lemma wp_insert : forall ord b h n r a d s A k v (Q : mp -> unit -> Prop), any_order ord -> inv h n r a d A -> hashable k = true ->
  glook geq r k = None -> glook geq (entries d) k = None ->
  (forall h' n' d', inv h' n' r true d' (gset geq A k v) -> Q (Mp b h' n' r true d' s) tt) ->
  wp (insert_new geq hashable ord k v) (Mp b h n r a d s) Q.
Proof. intros ord b h n r a d s A k v Q O I HK L L' H. destruct (insert_spec ord b h n r a d s A k v O I HK L L') as (h' & n' & d' & E & I'). eapply wp_of; eauto. Qed.
Lemma wp_unexp : forall b h n r a d s A k e (Q : mp -> unit -> Prop), inv h n r a d A -> hashable k = true -> glook geq r k = Some e ->
  (forall h' d', inv h' n r a d' A -> h' e <> EExp -> Q (Mp b h' n r a d' s) tt) ->
  wp (unexpunge geq hashable k e) (Mp b h n r a d s) Q.
Proof. intros b h n r a d s A k e Q I HK L H. destruct (unexp_spec b h n r a d s A k e I HK L) as (h' & d' & E & I' & X & _). eapply wp_of; eauto. Qed.
Local Opaque insert_new missLocked unexpunge dirty_del look_read look_dirty.
Ltac prim := first [apply wp_bind | apply wp_lock | apply wp_unlock | apply wp_amended | apply wp_eload | apply wp_estore
  | apply wp_look_read; [assumption|] | apply wp_look_dirty; [assumption|] | apply wp_ret]; cbn beta iota.
Ltac prims := repeat prim.

Definition good (m : mp) (A : list (K * V)) : Prop := mu m = false /\ inv (hp m) (nid m) (rm m) (am m) (dm m) A.
(** What a lookup in read.m says about the map *)
Lemma get_old : forall h n r a d A k e, inv h n r a d A -> glook geq r k = Some e -> h e <> EExp ->
  glook geq A k = match h e with EVal v => Some v | _ => None end.
Proof. intros h n r a d A k e I L NE. destruct (hit_read _ _ _ _ _ _ _ _ I L NE) as (k' & J & G). exact (hit_A _ _ _ _ _ _ _ _ _ I J G). Qed.
Lemma get_dirty_old : forall h n r a d A k e, inv h n r a d A -> glook geq (entries d) k = Some e ->
  a = true /\ h e <> EExp /\ glook geq A k = match h e with EVal v => Some v | _ => None end.
Proof. intros h n r a d A k e I L. destruct (hit_dirty _ _ _ _ _ _ _ _ I L) as (-> & NE & k' & J & G). repeat split; auto. exact (hit_A _ _ _ _ _ _ _ _ _ I J G). Qed.
Lemma write_read : forall h n r a d A k e x, inv h n r a d A -> glook geq r k = Some e -> h e <> EExp -> x <> EExp -> inv (hset h e x) n r a d (put_spec A k x).
Proof. intros h n r a d A k e x I L NE X. destruct (hit_read _ _ _ _ _ _ _ _ I L NE) as (k' & J & G). eapply inv_write; eauto. Qed.
Lemma write_dirty : forall h n r a d A k e x, inv h n r a d A -> glook geq (entries d) k = Some e -> x <> EExp -> inv (hset h e x) n r a d (put_spec A k x).
Proof. intros h n r a d A k e x I L X. destruct (hit_dirty _ _ _ _ _ _ _ _ I L) as (-> & NE & k' & J & G). eapply inv_write; eauto. Qed.

Lemma load_ok : forall m A k, good m A -> hashable k = true ->
  wp (load geq hashable k) m (fun m' r => r = answer_of (glook geq A k) /\ good m' A).
Proof.
  intros [b h n r a d s] A k [B I] HK. cbn in B, I. subst b. unfold load, e_load. prims.
  destruct (glook geq r k) as [e|] eqn:L.
  - prims. split; [|split; auto]. destruct (h e) eqn:E.
    + rewrite (get_old _ _ _ _ _ _ _ _ I L), E by congruence. auto.
    + destruct (exp_look _ _ _ _ _ _ _ _ I L E) as (_ & _ & _ & ->). auto.
    + rewrite (get_old _ _ _ _ _ _ _ _ I L), E by congruence. auto.
  - destruct a.
    + prims. rewrite L. prims. eapply wp_miss; [exact I|]. intros r' a' d' s' I' _. prims.
      destruct (glook geq (entries d) k) as [e|] eqn:L'; prims; (split; [|split; auto]).
      * destruct (get_dirty_old _ _ _ _ _ _ _ _ I L') as (_ & NE & ->). destruct (h e); auto.
      * rewrite (miss_A _ _ _ _ _ _ _ I L L'). auto.
    + prims. split; [|split; auto]. rewrite (miss_A _ _ _ _ _ _ _ I L); auto. rewrite (i_dm _ _ _ _ _ _ I eq_refl). auto.
Qed.
Lemma store_ok : forall ord m A k v, any_order ord -> good m A -> hashable k = true ->
  wp (store geq hashable ord k v) m (fun m' _ => good m' (gset geq A k v)).
Proof.
  intros ord [b h n r a d s] A k v O [B I] HK. cbn in B, I. subst b. unfold store, tryStore. prims.
  destruct (glook geq r k) as [e|] eqn:L.
  - prims. destruct (h e) eqn:E.
    + prims. split; auto. apply (write_read _ _ _ _ _ _ _ _ (EVal v) I L); congruence.
    + prims. rewrite L. prims. eapply wp_unexp; eauto. intros h' d' I' NE. prims. split; auto.
      apply (write_read _ _ _ _ _ _ _ _ (EVal v) I' L); congruence.
    + prims. split; auto. apply (write_read _ _ _ _ _ _ _ _ (EVal v) I L); congruence.
  - prims. rewrite L. prims. destruct (glook geq (entries d) k) as [e|] eqn:L'.
    + prims. split; auto. apply (write_dirty _ _ _ _ _ _ _ _ (EVal v) I L'); congruence.
    + eapply wp_insert; eauto. intros h' n' d' I'. prims. split; auto.
Qed.
Lemma gdel_none : forall A k, glook geq A k = None -> same_map (@gdel K V geq A k) A.
Proof. intros A k E. rewrite gdel_miss by auto. apply sm_refl. Qed.
Lemma loadOrStore_ok : forall ord m A k v, any_order ord -> good m A -> hashable k = true ->
  wp (loadOrStore geq hashable ord k v) m (fun m' r => r = match glook geq A k with Some w => (Some w, true) | None => (Some v, false) end /\
    good m' (match glook geq A k with Some w => A | None => gset geq A k v end)).
Proof.
  intros ord [b h n r a d s] A k v O [B I] HK. cbn in B, I. subst b. unfold loadOrStore, tryLoadOrStore. prims.
  destruct (glook geq r k) as [e|] eqn:L.
  - prims. destruct (h e) eqn:E.
    + prims. rewrite (get_old _ _ _ _ _ _ _ _ I L), E by congruence. prims. split; auto. split; auto. apply (write_read _ _ _ _ _ _ _ _ (EVal v) I L); congruence.
    + prims. rewrite L. prims. eapply wp_unexp; eauto. intros h' d' I' NE. prims.
      destruct (exp_look _ _ _ _ _ _ _ _ I L E) as (_ & _ & _ & LA). pose proof (get_old _ _ _ _ _ _ _ _ I' L NE) as LA'. rewrite LA in *.
      destruct (h' e) eqn:E'; [|congruence|discriminate]. prims. split; auto. split; auto.
      apply (write_read _ _ _ _ _ _ _ _ (EVal v) I' L); congruence.
    + prims. rewrite (get_old _ _ _ _ _ _ _ _ I L), E by congruence. prims. split; auto. split; auto.
  - prims. rewrite L. prims. destruct (glook geq (entries d) k) as [e|] eqn:L'.
    + prims. destruct (get_dirty_old _ _ _ _ _ _ _ _ I L') as (-> & NE & ->). destruct (h e) eqn:E; [|congruence|].
      * prims. eapply wp_miss; [apply (write_dirty _ _ _ _ _ _ _ _ (EVal v) I L'); congruence|]. intros r' a' d' s' I' _. prims. split; auto. split; auto.
      * prims. eapply wp_miss; [exact I|]. intros r' a' d' s' I' _. prims. split; auto. split; auto.
    + rewrite (miss_A _ _ _ _ _ _ _ I L L'). prims. eapply wp_insert; eauto. intros h' n' d' I'. prims. split; auto. split; auto.
Qed.
Lemma computeIfPresent_ok : forall m A k g, good m A -> hashable k = true ->
  wp (computeIfPresent geq hashable k g) m (fun m' r => r = match glook geq A k with Some w => (Some (g k w), true) | None => (None, false) end /\
    good m' (match glook geq A k with Some w => gset geq A k (g k w) | None => A end)).
Proof.
  intros [b h n r a d s] A k g [B I] HK. cbn in B, I. subst b. unfold computeIfPresent, tryComputeIfPresent. prims.
  destruct (glook geq r k) as [e|] eqn:L.
  - prims. destruct (h e) eqn:E.
    + prims. rewrite (get_old _ _ _ _ _ _ _ _ I L), E by congruence. prims. split; auto. split; auto.
    + prims. rewrite L. prims. eapply wp_unexp; eauto. intros h' d' I' NE. prims.
      destruct (exp_look _ _ _ _ _ _ _ _ I L E) as (_ & _ & _ & LA). pose proof (get_old _ _ _ _ _ _ _ _ I' L NE) as LA'. rewrite LA in *.
      destruct (h' e) eqn:E'; [|congruence|discriminate]. prims. split; auto. split; auto.
    + prims. rewrite (get_old _ _ _ _ _ _ _ _ I L), E by congruence. prims. split; auto. split; auto.
      apply (write_read _ _ _ _ _ _ _ _ (EVal (g k v)) I L); congruence.
  - prims. rewrite L. prims. destruct (glook geq (entries d) k) as [e|] eqn:L'.
    + prims. destruct (get_dirty_old _ _ _ _ _ _ _ _ I L') as (-> & NE & ->). destruct (h e) eqn:E; [|congruence|].
      * prims. eapply wp_miss; [exact I|]. intros r' a' d' s' I' _. prims. split; auto. split; auto.
      * prims. eapply wp_miss; [apply (write_dirty _ _ _ _ _ _ _ _ (EVal (g k v)) I L'); congruence|]. intros r' a' d' s' I' _. prims. split; auto. split; auto.
    + rewrite (miss_A _ _ _ _ _ _ _ I L L'). prims. split; auto. split; auto.
Qed.
Lemma loadAndDelete_ok : forall m A k, good m A -> hashable k = true ->
  wp (loadAndDelete geq hashable k) m (fun m' r => r = answer_of (glook geq A k) /\ good m' (gdel geq A k)).
Proof.
  intros [b h n r a d s] A k [B I] HK. cbn in B, I. subst b. unfold loadAndDelete, e_delete. prims.
  destruct (glook geq r k) as [e|] eqn:L.
  - prims. destruct (h e) eqn:E; prims.
    + pose proof (get_old _ _ _ _ _ _ _ _ I L) as LA. rewrite E in LA. rewrite LA by congruence. split; auto. split; auto. cbn. rewrite gdel_miss by (apply LA; congruence). auto.
    + destruct (exp_look _ _ _ _ _ _ _ _ I L E) as (_ & _ & _ & LA). rewrite LA. split; auto. split; auto. cbn. rewrite gdel_miss by auto. auto.
    + rewrite (get_old _ _ _ _ _ _ _ _ I L), E by congruence. split; auto. split; auto. apply (write_read _ _ _ _ _ _ _ _ ENil I L); congruence.
  - destruct a.
    + destruct d as [d|]; [|destruct (i_dm' _ _ _ _ _ _ I eq_refl eq_refl)].
      prims. rewrite L. prims. apply wp_dirty_del; auto. prims. eapply wp_miss; [apply (inv_del _ _ _ _ _ _ I L)|]. intros r' a' d' s' I' C. prims.
      cbn [entries] in *. destruct (glook geq d k) as [e|] eqn:L'; prims.
      * destruct (get_dirty_old _ _ _ _ _ _ _ _ I L') as (_ & NE & ->). destruct (h e) eqn:E; [|congruence|]; prims; (split; auto); (split; auto).
        apply glook_in in L'. destruct L' as (k' & J & G).
        assert (N1 : ~ In e (names r)).
        { intros X. apply in_map_iff in X. destruct X as ([k0 e0] & Ee & X). cbn in Ee. subst e0.
          assert (NE' : h e <> EExp) by congruence. destruct (i_in _ _ _ _ _ _ I k0 e X NE' eq_refl) as (k2 & S & J2). cbn in J2.
          assert (k2 = k').
          { pose proof (i_dn _ _ _ _ _ _ I) as ND. cbn in ND. clear -ND J J2. induction d as [|[a b] d IH]; [destruct J|]. cbn in ND. apply NoDup_cons_iff in ND. destruct ND as [N0 N1].
            destruct J as [[= -> ->]|J], J2 as [[= J2]|J2]; subst; auto; exfalso; apply N0; eapply in_names; eauto. }
          subst k2. assert (X2 : geq k k0 = true) by (eapply samek_geq; [exact G|destruct S as [->|S]; [left; auto|right; rewrite geq_sym; auto]]).
          apply (proj1 (glook_none _ _) L) in X. unfold hit in X. cbn in X. congruence. }
        assert (N2 : ~ In e (names (gdel geq d k))).
        { intros X. apply in_map_iff in X. destruct X as ([k0 e0] & Ee & X). cbn in Ee. subst e0. apply filter_In in X. destruct X as [X X'].
          assert (k0 = k').
          { pose proof (i_dn _ _ _ _ _ _ I) as ND. cbn in ND. clear -ND J X. induction d as [|[a b] d IH]; [destruct J|]. cbn in ND. apply NoDup_cons_iff in ND. destruct ND as [N0 N1].
            destruct J as [[= -> ->]|J], X as [[= J2]|J2]; subst; auto; exfalso; apply N0; eapply in_names; eauto. }
          subst k0. unfold hit in X'. cbn in X'. rewrite G in X'. discriminate. }
        cbn. apply inv_out; auto; destruct C as [(-> & -> & ->)|(-> & -> & ->)]; cbn; auto.
      * rewrite (miss_A _ _ _ _ _ _ _ I L L'). split; auto. split; auto.
    + prims. assert (LA : glook geq A k = None) by (apply (miss_A _ _ _ _ _ _ _ I L); rewrite (i_dm _ _ _ _ _ _ I eq_refl); auto).
      rewrite LA. split; auto. split; auto. cbn. rewrite gdel_miss; auto.
Qed.
Lemma clear_ok : forall m A, good m A -> wp clear m (fun m' _ => good m' []).
Proof.
  intros [b h n r a d s] A [B I]. cbn in B, I. subst b. eapply wp_of; [reflexivity|]. split; auto. cbn.
  split; cbn; auto using dist_nil, NoDup_nil; try discriminate; try tauto. constructor.
Qed.
Lemma range_ok : forall ord m A, any_order ord -> good m A -> wp (range ord) m (fun m' p => same_map p A /\ good m' A).
Proof.
  intros ord [b h n r a d s] A O [B I]. cbn in B, I. subst b. destruct a.
  - eapply wp_of; [reflexivity|]. cbn. split.
    + eapply sm_trans; [apply sm_perm; apply cont_perm; apply O|]. apply I.
    + split; auto. cbn. eapply inv_promote; eauto.
  - eapply wp_of; [reflexivity|]. cbn. split; [|split; auto]. eapply sm_trans; [apply sm_perm; apply cont_perm; apply O|]. apply I.
Qed.
(** Every call *)
Lemma call_ok : forall ord m A o, any_order ord -> good m A -> (forall k, key_of_op o = Some k -> hashable k = true) ->
  wp (call geq hashable ord o) m (fun m' r => fst r = snd (go_call geq A o) /\ good m' (fst (go_call geq A o)) /\ (o = KRange -> same_map (snd r) A)).
Proof.
  intros ord m A o O G HK. assert (C : forall {X} (c : M X) (Q Q' : mp -> X -> Prop), wp c m Q -> (forall m' x, Q m' x -> Q' m' x) -> wp c m Q').
  { intros X c Q Q' (m' & x & E & H) I. exists m', x. auto. }
  destruct o; cbn [key_of_op] in HK; try specialize (HK _ eq_refl); unfold call; apply wp_bind.
  - eapply C; [apply load_ok; eauto|]. intros m' x [-> G']. apply wp_ret. cbn. split; [reflexivity|split; [exact G'|discriminate]].
  - eapply C; [apply store_ok; eauto|]. intros m' x G'. apply wp_ret. cbn. split; [reflexivity|split; [exact G'|discriminate]].
  - eapply C; [apply loadOrStore_ok; eauto|]. intros m' x [-> G']. apply wp_ret. cbn. destruct (glook geq A k); (split; [reflexivity|split; [exact G'|discriminate]]).
  - eapply C; [apply loadOrStore_ok; eauto|]. intros m' x [-> G']. apply wp_ret. cbn. destruct (glook geq A k); (split; [reflexivity|split; [exact G'|discriminate]]).
  - eapply C; [apply computeIfPresent_ok; eauto|]. intros m' x [-> G']. apply wp_ret. cbn. destruct (glook geq A k); (split; [reflexivity|split; [exact G'|discriminate]]).
  - eapply C; [apply loadAndDelete_ok; eauto|]. intros m' x [-> G']. apply wp_ret. cbn. split; [reflexivity|split; [exact G'|discriminate]].
  - eapply C; [apply loadAndDelete_ok; eauto|]. intros m' x [-> G']. apply wp_ret. cbn. split; [reflexivity|split; [exact G'|discriminate]].
  - eapply C; [eapply clear_ok; eauto|]. intros m' x G'. apply wp_ret. cbn. split; [reflexivity|split; [exact G'|discriminate]].
  - eapply C; [eapply range_ok; eauto|]. intros m' x [S G']. apply wp_ret. cbn. split; [reflexivity|split; [exact G'|auto]].
Qed.
(** A key that cannot be hashed *)
Local Transparent look_read.
Lemma call_bad : forall ord (m : mp) o k, key_of_op o = Some k -> hashable k = false -> call geq hashable ord o m = (m, Pan).
Proof.
  intros ord m o k E H.
  assert (L : forall l, lookup geq hashable l k m = (m, Pan)) by (intros l; unfold lookup; rewrite H; auto).
  destruct o; cbn in E; try discriminate; injection E as ->; unfold call, load, store, computeIfAbsent, loadOrStore, computeIfPresent, loadAndDelete;
    unfold bind, look_read, bind, get_read; rewrite L; reflexivity.
Qed.
End P.
