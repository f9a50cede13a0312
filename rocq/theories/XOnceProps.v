(** * Properties C42, C43 *)
From Coq Require Import ZArith List Bool Lia.
From Verif Require Import GoBase Trans XOnceModel XOnceSpec.
Import ListNotations.

Lemma in_snoc : forall {A} (l : list A) x y, In x (l ++ [y]) <-> In x l \/ y = x.
Proof. intros. rewrite in_app_iff. cbn. tauto. Qed.

(** ** C42 *)
Section Chan.
Context {V : Type}.
Notation oexec := (exec (@oinit V) (@ostep V)).

Definition owner (p : opc V) : bool := match p with OSend _ | OClose | ORet true => true | _ => false end.

Inductive stage := S0 | S1 | S2 | S3 | S4.
Definition spc (st : stage) (v : V) : option (opc V) :=
  match st with S1 => Some (OSend v) | S2 => Some OClose | S3 => Some (ORet true) | _ => None end.

Definition oinv (tr : list (olabel V)) (s : ostate V) : Prop :=
  exists st w v,
    wrote s = match st with S0 => false | _ => true end /\
    closed s = match st with S3 | S4 => true | _ => false end /\
    truers tr = match st with S4 => [w] | _ => [] end /\
    (match st with S0 => wins tr = [] | _ => wins tr = [(w, v)] end) /\
    (forall t, owner (opcs s t) = true -> t = w) /\
    (match spc st v with Some p => opcs s w = p | None => owner (opcs s w) = false end) /\
    (st = S0 -> forall t, opcs s t <> ORet false) /\
    (st = S0 -> forall t, ~ In (OLose t) tr) /\
    (st = S0 -> forall t b, ~ In (OReturn t b) tr) /\
    (forall t, opcs s t <> ODead) /\
    (match st with
     | S0 | S1 => buf s = [] /\ received tr = []
     | S2 => buf s = [v] /\ received tr = [] \/ buf s = [] /\ received tr = [Some v]
     | _ => buf s = [v] /\ received tr = [] \/ buf s = [] /\ exists k, received tr = Some v :: repeat None k
     end).

Lemma truers_app : forall a b : list (olabel V), truers (a ++ b) = truers a ++ truers b.
Proof. induction a as [|l a IH]; intros; auto. destruct l as [| | | | |t [|]|]; cbn; rewrite ?IH; auto. Qed.
Lemma wins_app : forall a b : list (olabel V), wins (a ++ b) = wins a ++ wins b.
Proof. induction a as [|l a IH]; intros; auto. destruct l; cbn; rewrite ?IH; auto. Qed.
Lemma received_app : forall a b : list (olabel V), received (a ++ b) = received a ++ received b.
Proof. induction a as [|l a IH]; intros; auto. destruct l; cbn; rewrite ?IH; auto. Qed.

Lemma repeat_snoc : forall {A} (x : A) k, repeat x k ++ [x] = repeat x (S k).
Proof. induction k; cbn; auto. now rewrite IHk. Qed.

Ltac upd_at t u := unfold upd; destruct (Nat.eqb_spec t u) as [?|?]; [subst u|].

Lemma oinv_exec : forall tr s, oexec tr s -> V -> oinv tr s.
Proof.
  intros tr s H v0. revert tr s H. apply (exec_ind_inv _ _ oinv).
  - intros s (A & B & C & D). exists S0, 0%nat, v0. rewrite A, B, C. cbn. rewrite D.
    repeat split; auto; try (intros; rewrite D in *; discriminate).
  - intros tr s l s' _ (st & w & v & A1 & A2 & A3 & A4 & A5 & A6 & A7 & A8 & A9 & A10 & A11) St.
    unfold oinv. rewrite truers_app, wins_app, received_app, A3.
    inversion St; subst; cbn [wrote closed buf opcs] in *; cbn [truers wins received]; rewrite ?app_nil_r.
    + (* call *) exists st, w, v. split; [auto|]. split; [auto|]. split; [auto|]. split; [auto|].
      split; [|split; [|split; [|split; [|split; [|split; [|auto]]]]]].
      * intros u. upd_at t u; [discriminate|apply A5].
      * destruct (spc st v) eqn:E; upd_at t w; auto. rewrite H in A6. subst. destruct st; discriminate.
      * intros E u. upd_at t u; [discriminate|]. now apply A7.
      * intros E u X. rewrite in_snoc in X. destruct X as [X|X]; [now apply (A8 E u)|discriminate].
      * intros E u b' X. rewrite in_snoc in X. destruct X as [X|X]; [now apply (A9 E u b')|discriminate].
      * intros u. upd_at t u; [discriminate|apply A10].
    + (* win *) destruct st; try discriminate. cbn in A6. exists S1, t, v1. rewrite A4. cbn.
      split; [auto|]. split; [auto|]. split; [auto|]. split; [auto|].
      split; [|split; [|split; [|split; [|split; [|split; [|auto]]]]]]; try discriminate.
      * intros u. upd_at t u; auto. intros X. specialize (A5 _ X). subst u. congruence.
      * now rewrite upd_same.
      * intros u. upd_at t u; [discriminate|apply A10].
    + (* lose *) destruct st; try discriminate; (exists S1, w, v + exists S2, w, v + exists S3, w, v + exists S4, w, v); cbn in *;
        (split; [auto|]; split; [auto|]; split; [auto|]; split; [auto|]);
        (split; [|split; [|split; [|split; [|split; [|split; [|auto]]]]]]; try discriminate;
        [intros u; upd_at t u; [discriminate|apply A5]
        |upd_at t w; auto; try congruence
        |intros u; upd_at t u; [discriminate|apply A10]]).
    + (* send *)
      assert (t = w) by (apply A5; rewrite H; reflexivity). subst t.
      destruct st; cbn in A6; try (rewrite H in A6; discriminate). rewrite H in A6. inversion A6; subst v1.
      destruct A11 as [-> R]. exists S2, w, v. cbn.
      split; [auto|]. split; [auto|]. split; [auto|]. split; [auto|].
      split; [|split; [|split; [|split; [|split; [|split; [|auto]]]]]]; try discriminate.
      * intros u. upd_at w u; auto.
      * now rewrite upd_same.
      * intros u. upd_at w u; [discriminate|apply A10].
    + (* send panic: impossible *)
      assert (t = w) by (apply A5; rewrite H; reflexivity). subst t.
      destruct st; cbn in A6; rewrite H in A6; discriminate.
    + (* close *)
      assert (t = w) by (apply A5; rewrite H; reflexivity). subst t.
      destruct st; cbn in A6; try (rewrite H in A6; discriminate).
      exists S3, w, v. cbn.
      split; [auto|]. split; [auto|]. split; [auto|]. split; [auto|].
      split; [|split; [|split; [|split; [|split; [|split; [|]]]]]]; try discriminate.
      * intros u. upd_at w u; auto.
      * now rewrite upd_same.
      * intros u. upd_at w u; [discriminate|apply A10].
      * destruct A11 as [A11|[B1 B2]]; auto. right. split; auto. exists 0%nat. auto.
    + (* close panic: impossible *)
      assert (t = w) by (apply A5; rewrite H; reflexivity). subst t.
      destruct st; cbn in A6; rewrite H in A6; discriminate.
    + (* return *)
      destruct r.
      * assert (t = w) by (apply A5; rewrite H; reflexivity). subst t.
        destruct st; cbn in A6; try (rewrite H in A6; discriminate).
        exists S4, w, v. cbn.
        split; [auto|]. split; [auto|]. split; [auto|]. split; [auto|].
        split; [|split; [|split; [|split; [|split; [|split; [|auto]]]]]]; try discriminate.
        -- intros u. upd_at w u; auto.
        -- now rewrite upd_same.
        -- intros u. upd_at w u; [discriminate|apply A10].
      * destruct st; [exfalso; now apply (A7 eq_refl t)|..]; (exists S1, w, v + exists S2, w, v + exists S3, w, v + exists S4, w, v); cbn in *;
        (split; [auto|]; split; [auto|]; split; [auto|]; split; [auto|]);
        (split; [|split; [|split; [|split; [|split; [|split; [|auto]]]]]]; try discriminate;
        [intros u; upd_at t u; [discriminate|apply A5]
        |upd_at t w; auto; try congruence
        |intros u; upd_at t u; [discriminate|apply A10]]).
    + (* receive *)
      assert (Hst : st <> S0 /\ st <> S1) by (destruct st; destruct A11; split; congruence).
      exists st, w, v. split; [auto|]. split; [auto|]. split; [auto|]. split; [auto|].
      split; [auto|split; [auto|split; [auto|split; [|split; [|split; [auto|]]]]]].
      * intros E. destruct Hst. contradiction.
      * intros E. destruct Hst. contradiction.
      * destruct st; destruct Hst as [? ?]; try congruence; destruct A11 as [[B R]|[B R]]; try discriminate; inversion B; subst; rewrite R; cbn; right; split; auto; exists 0%nat; auto.
    + (* receive from closed *)
      exists st, w, v. split; [auto|]. split; [auto|]. split; [auto|]. split; [auto|].
      split; [auto|split; [auto|split; [auto|split; [|split; [|split; [auto|]]]]]].
      * intros ->. discriminate.
      * intros ->. discriminate.
      * destruct st; try discriminate; destruct A11 as [[B R]|[B [k R]]]; try discriminate; right; split; auto;
          exists (S k); rewrite R; cbn; now rewrite repeat_snoc.
Qed.

Variable nilv : V.     (* interface{} has a value *)

(** At most one Write returns true; a Write returns only after some Write won, and the one
    returning true is the winner. *)
Theorem C42_one : forall tr s, oexec tr s ->
  (length (truers tr) <= 1)%nat /\ (length (wins tr) <= 1)%nat /\
  (forall t b, In (OReturn t b) tr -> exists w v, wins tr = [(w, v)]) /\
  (forall t, In t (truers tr) -> exists v, wins tr = [(t, v)]).
Proof.
  intros tr s H. destruct (oinv_exec _ _ H nilv) as (st & w & v & A1 & A2 & A3 & A4 & A5 & A6 & A7 & A8 & A9 & A10 & A11).
  rewrite A3. split; [destruct st; cbn; lia|]. split; [destruct st; rewrite A4; cbn; lia|]. split.
  - intros t b X. destruct st; eauto. now apply A9 in X.
  - intros t X. destruct st; try contradiction. destruct X as [<-|[]]. eauto.
Qed.

(** The first attempt wins: nothing failed and nothing returned before the winning step. *)
Theorem C42_first : forall tr1 t v tr2 s, oexec (tr1 ++ OWin t v :: tr2) s ->
  (forall u, ~ In (OLose u) tr1) /\ (forall u b, ~ In (OReturn u b) tr1).
Proof.
  intros tr1 t v tr2 s H. destruct (C42_one _ _ H) as (_ & L & _). rewrite wins_app, app_length in L. cbn in L.
  apply exec_app_inv in H. destruct H as (s1 & H & _).
  destruct (oinv_exec _ _ H nilv) as (st & w & v' & A1 & A2 & A3 & A4 & A5 & A6 & A7 & A8 & A9 & A10 & A11).
  destruct st; auto; rewrite A4 in L; cbn in L; lia.
Qed.

(** When every call has returned and at least one was made, exactly one returned true. *)
Theorem C42_exactly_one : forall tr s t v, oexec tr s -> In (OCall t v) tr -> (forall u, opcs s u = OIdle) ->
  exists w x, truers tr = [w] /\ wins tr = [(w, x)].
Proof.
  intros tr s t v H Hc Idle. destruct (oinv_exec _ _ H nilv) as (st & w & v' & A1 & A2 & A3 & A4 & A5 & A6 & A7 & A8 & A9 & A10 & A11).
  destruct st; cbn in A6; try (rewrite Idle in A6; discriminate); [|eauto]. exfalso.
  (* stage S0: the caller must still be inside its call *)
  assert (G : forall tr s, oexec tr s -> wins tr = [] -> forall t v, In (OCall t v) tr -> exists v', opcs s t = OCas v').
  { clear - nilv. apply (exec_ind_inv _ _ (fun tr s => wins tr = [] -> forall t v, In (OCall t v) tr -> exists v', opcs s t = OCas v')).
    - intros s _ _ t v [].
    - intros tr s l s' Hex IH St W t v X. rewrite wins_app in W. apply app_eq_nil in W. destruct W as [W1 W2].
      specialize (IH W1). rewrite in_snoc in X.
      destruct (oinv_exec _ _ Hex nilv) as (st & w & v' & A1 & A2 & A3 & A4 & A5 & A6 & A7 & A8 & A9 & A10 & A11).
      assert (st = S0) by (destruct st; auto; congruence). subst st.
      assert (A5' : forall u, owner (opcs s u) = false). { intros u. destruct (owner (opcs s u)) eqn:E; auto. pose proof (A5 _ E). subst. cbn in A6. congruence. }
      destruct X as [X|X].
      + destruct (IH _ _ X) as (v1 & E). inversion St; subst; cbn [opcs] in *; try discriminate; eauto;
          try (unfold upd; destruct (Nat.eqb_spec t0 t) as [->|N]; eauto; exfalso; congruence).
      + subst l. inversion St; subst; cbn [opcs]. exists v. now rewrite upd_same. }
  destruct (G _ _ H A4 _ _ Hc) as (v1 & E). rewrite Idle in E. discriminate.
Qed.

(** No Write panics ... *)
Theorem C42_no_panic : forall tr s t, oexec tr s -> ~ In (OPanic t) tr.
Proof.
  intros tr s t H X. apply in_split in X. destruct X as (a & b & ->). apply exec_app_inv in H. destruct H as (s1 & H & R).
  apply steps_cons_inv in R. destruct R as (s2 & St & R).
  assert (H2 : oexec (a ++ [OPanic t]) s2) by (eapply exec_snoc; eauto).
  destruct (oinv_exec _ _ H2 nilv) as (st & w & v' & A1 & A2 & A3 & A4 & A5 & A6 & A7 & A8 & A9 & A10 & A11).
  apply (A10 t). inversion St; subst; cbn; now rewrite upd_same.
Qed.

(** ... or blocks: a goroutine inside Write always has an enabled step. *)
Theorem C42_no_block : forall tr s t, oexec tr s -> opcs s t <> OIdle ->
  exists l s', ostep s l s' /\ opcs s' t <> opcs s t /\ (forall u, u <> t -> opcs s' u = opcs s u).
Proof.
  intros tr s t H N. destruct (oinv_exec _ _ H nilv) as (st & w & v & A1 & A2 & A3 & A4 & A5 & A6 & A7 & A8 & A9 & A10 & A11).
  destruct s as [wr b c p]. cbn [wrote buf closed opcs] in *.
  assert (Up : forall x, p t <> x -> (upd p t x t <> p t) /\ forall u, u <> t -> upd p t x u = p u).
  { intros x Nx. rewrite upd_same. split; auto. intros u Nu. now rewrite upd_other by auto. }
  destruct (p t) as [|x|x| |r|] eqn:E; try congruence.
  - destruct wr; eexists _, _; (split; [econstructor; eauto|]); cbn; rewrite ?E; apply Up; discriminate.
  - assert (t = w) by (apply A5; now rewrite E). subst t. destruct st; cbn in A6; try congruence; try (rewrite E in A6; discriminate).
    destruct A11 as [-> _]. subst c. eexists _, _. split; [eapply OSSend; eauto|]. cbn. rewrite ?E. apply Up; discriminate.
  - assert (t = w) by (apply A5; now rewrite E). subst t. destruct st; cbn in A6; try congruence; try (rewrite E in A6; discriminate).
    subst c. eexists _, _. split; [eapply OSClose; eauto|]. cbn. rewrite ?E. apply Up; discriminate.
  - eexists _, _. split; [eapply OSRet; eauto|]. cbn. rewrite ?E. apply Up; discriminate.
Qed.

(** Receivers see the winner's value exactly once, and after it only "closed". *)
Theorem C42_received : forall tr s, oexec tr s ->
  received tr = [] \/ exists w v k, wins tr = [(w, v)] /\ received tr = Some v :: repeat None k.
Proof.
  intros tr s H. destruct (oinv_exec _ _ H nilv) as (st & w & v & A1 & A2 & A3 & A4 & A5 & A6 & A7 & A8 & A9 & A10 & A11).
  destruct st; try (left; now apply A11).
  - destruct A11 as [[_ R]|[_ R]]; auto. right. exists w, v, 0%nat. auto.
  - destruct A11 as [[_ R]|[_ [k R]]]; auto. right. eauto.
  - destruct A11 as [[_ R]|[_ [k R]]]; auto. right. eauto.
Qed.

(** Once a Write returned true, a receive is always possible: the value first, if not yet
    taken, and "closed" after it. *)
Theorem C42_available : forall tr s w, oexec tr s -> In w (truers tr) -> exists r s', ostep s (ORecv r) s' /\
  (received tr = [] -> exists v, r = Some v /\ wins tr = [(w, v)]).
Proof.
  intros tr s w0 H X. destruct (oinv_exec _ _ H nilv) as (st & w & v & A1 & A2 & A3 & A4 & A5 & A6 & A7 & A8 & A9 & A10 & A11).
  destruct st; rewrite A3 in X; try contradiction. destruct X as [->|[]].
  destruct s as [wr b c p]. cbn [wrote buf closed opcs] in *. subst.
  destruct A11 as [[-> R]|[-> [k R]]].
  - eexists _, _. split; [apply OSRecv|]. eauto.
  - eexists _, _. split; [apply OSRecvClosed|]. rewrite R. discriminate.
Qed.
End Chan.

Example C42_ex : exists s, exec oinit ostep
  [OCall 0 5; OCall 1 6; OWin 1 6; OLose 0; OReturn 0 false; OTau 1; ORecv (Some 6); OTau 1; ORecv None; OReturn 1 true] s.
Proof.
  eexists. exists (OS false [] false (fun _ => OIdle)). split; [repeat split|].
  run (eapply OSCall; reflexivity). run (eapply OSCall; reflexivity). run (eapply OSWin; reflexivity).
  run (eapply OSLose; reflexivity). run (eapply OSRet; reflexivity). run (eapply (OSSend _ _ _ _ 1); [reflexivity|cbn; lia]).
  run (eapply OSRecv). run (eapply OSClose; reflexivity). run (eapply OSRecvClosed). run (eapply OSRet; reflexivity). constructor.
Qed.

Print Assumptions C42_one. Print Assumptions C42_exactly_one. Print Assumptions C42_no_block. Print Assumptions C42_received.

(** ** C43 *)
Notation vexec := (exec vinit vstep).

Lemma commits_app : forall a b, commits (a ++ b) = commits a ++ commits b.
Proof. induction a as [|l a IH]; intros; auto. destruct l; cbn; rewrite ?IH; auto. Qed.
Lemma vtruers_app : forall a b, vtruers (a ++ b) = vtruers a ++ vtruers b.
Proof. induction a as [|l a IH]; intros; auto. destruct l as [| | | |t [|]| |]; cbn; rewrite ?IH; auto. Qed.

(** Program points that presuppose a committed value, or the first store in progress. *)
Definition storing (p : vpc) : bool := match p with VStoreData _ | VStoreType _ => true | _ => false end.
Definition after (p : vpc) : bool := match p with VRet _ | LData _ | LRet (Some _) => true | _ => false end.

Definition vinv (tr : list vlabel) (s : vstate) : Prop :=
  match typ s with
  | TyNil => commits tr = [] /\ vtruers tr = [] /\ (forall t, storing (vpcs s t) = false /\ after (vpcs s t) = false)
  | TyProg => commits tr = [] /\ vtruers tr = [] /\ (forall t, after (vpcs s t) = false) /\
      exists w v, (forall t, storing (vpcs s t) = true -> t = w) /\
        (vpcs s w = VStoreData v \/ vpcs s w = VStoreType v /\ dat s = vdata v)
  | Ty n => exists w v, commits tr = [(w, v)] /\ n = vty v /\ dat s = vdata v /\
      (forall t, storing (vpcs s t) = false) /\
      (forall t, vpcs s t = VRet true -> t = w) /\
      (vtruers tr = [] /\ vpcs s w = VRet true \/ vtruers tr = [w] /\ vpcs s w <> VRet true) /\
      (forall t, match vpcs s t with LData k => k = vty v | LRet (Some g) => g = v | _ => True end)
  end.

Ltac vu t u := unfold upd; destruct (Nat.eqb_spec t u) as [?|?]; [subst u|].

(** Steps that change only one goroutine's program counter between harmless points. *)
Definition harmless (p : vpc) : bool :=
  match p with VIdle | VEnter _ | VLoop _ | VCas _ | VDead | LBegin | LRet None => true | _ => false end.

Lemma harmless_step : forall tr l y d p t q, commits [l] = [] -> vtruers [l] = [] ->
  harmless (p t) = true -> harmless q = true -> vinv tr (VS y d p) -> vinv (tr ++ [l]) (VS y d (upd p t q)).
Proof.
  intros tr l y d p t q C T H1 H2 I. unfold vinv in *. cbn [typ dat vpcs] in *. rewrite commits_app, vtruers_app, C, T, !app_nil_r.
  assert (Sq : storing q = false /\ after q = false) by (destruct q as [| | | | | | | | | |[|]]; auto; discriminate).
  assert (Sp : storing (p t) = false /\ after (p t) = false) by (destruct (p t) as [| | | | | | | | | |[|]]; auto; discriminate).
  destruct Sq as [Sq1 Sq2], Sp as [Sp1 Sp2].
  destruct y.
  - destruct I as (A & B & D). split; auto. split; auto. intros u. vu t u; auto.
  - destruct I as (A & B & D & w & v & E & F). split; auto. split; auto. split; [intros u; vu t u; auto|].
    exists w, v. split; [intros u; vu t u; auto; congruence|]. vu t w; auto.
    exfalso. destruct F as [F|[F _]]; rewrite F in Sp1; discriminate.
  - destruct I as (w & v & A & B & D & E & F & G & K). exists w, v. split; auto. split; auto. split; auto.
    split; [intros u; vu t u; auto|]. split; [intros u; vu t u; auto; intros ->; discriminate|]. split.
    + destruct G as [[G1 G2]|[G1 G2]]; [left|right]; (split; auto); vu t w; auto.
      * rewrite G2 in Sp2. discriminate.
      * intros ->. discriminate.
    + intros u. vu t u; [|apply K]. destruct q as [| | | | | | | | | |[|]]; auto; discriminate.
Qed.

Lemma vinv_exec : forall tr s, vexec tr s -> vinv tr s.
Proof.
  apply (exec_ind_inv _ _ vinv).
  - intros s (A & B). unfold vinv. rewrite A. split; auto. split; auto. intros t. rewrite B. auto.
  - intros tr s l s' _ I St.
    inversion St; subst; try (apply harmless_step; auto; rewrite H; auto; fail);
      unfold vinv in *; cbn [typ dat vpcs] in *; rewrite commits_app, vtruers_app; cbn [commits vtruers]; rewrite ?app_nil_r.
    + (* same type: return false *)
      destruct I as (w & v' & A & B & D & E & F & G & K). exists w, v'. split; auto. split; auto. split; auto.
      split; [intros u; vu t u; auto|]. split; [intros u; vu t u; auto; discriminate|]. split.
      * destruct G as [[G1 G2]|[G1 G2]]; [left|right]; (split; auto); vu t w; auto; [congruence|discriminate].
      * intros u. vu t u; [auto|apply K].
    + (* first store starts *)
      destruct I as (A & B & D). split; auto. split; auto. split; [intros u; vu t u; auto; apply D|].
      exists t, v. split; [intros u; vu t u; auto; intros X; destruct (D u) as [Y _]; congruence|]. left. now rewrite upd_same.
    + (* data *)
      destruct y.
      * destruct I as (A & B & D). destruct (D t) as [X _]. rewrite H in X. discriminate.
      * destruct I as (A & B & D & w & v' & E & F). assert (t = w) by (apply E; now rewrite H). subst t.
        destruct F as [F|[F _]]; rewrite F in H; inversion H; subst v'.
        split; auto. split; auto. split; [intros u; vu w u; auto|]. exists w, v.
        split; [intros u; vu w u; auto|]. right. now rewrite upd_same.
      * destruct I as (w & v' & A & B & D & E & F & G & K). specialize (E t). rewrite H in E. discriminate.
    + (* type *)
      destruct y.
      * destruct I as (A & B & D). destruct (D t) as [X _]. rewrite H in X. discriminate.
      * destruct I as (A & B & D & w & v' & E & F). assert (t = w) by (apply E; now rewrite H). subst t.
        destruct F as [F|[F F2]]; rewrite F in H; inversion H; subst v'. rewrite A, B. cbn.
        exists w, v. split; auto. split; auto. split; auto.
        split; [intros u; vu w u; auto; destruct (storing (vpcs (VS TyProg d p) u)) eqn:X; auto; cbn in X; specialize (E _ X); congruence|].
        split; [intros u; vu w u; auto; intros X; specialize (D u); rewrite X in D; discriminate|].
        split; [left; split; auto; now rewrite upd_same|].
        intros u. vu w u; auto. specialize (D u). destruct (p u) as [| | | | | | | | | |[|]]; auto; discriminate.
      * destruct I as (w & v' & A & B & D & E & F & G & K). specialize (E t). rewrite H in E. discriminate.
    + (* return *)
      destruct y.
      * destruct I as (A & B & D). destruct (D t) as [_ X]. rewrite H in X. discriminate.
      * destruct I as (A & B & D & _). specialize (D t). rewrite H in D. discriminate.
      * destruct I as (w & v' & A & B & D & E & F & G & K). exists w, v'. split; auto. split; auto. split; auto.
        split; [intros u; vu t u; auto|]. split; [intros u; vu t u; auto; discriminate|]. split.
        -- destruct b.
           ++ assert (t = w) by auto. subst t. destruct G as [[G1 G2]|[G1 G2]]; [|congruence].
              right. rewrite G1, upd_same. split; auto. discriminate.
           ++ rewrite app_nil_r. destruct G as [[G1 G2]|[G1 G2]]; [left|right]; (split; auto); vu t w; auto; [congruence|discriminate].
        -- intros u. vu t u; [auto|apply K].
    + (* load type *)
      destruct I as (w & v' & A & B & D & E & F & G & K). exists w, v'. split; auto. split; auto. split; auto.
      split; [intros u; vu t u; auto|]. split; [intros u; vu t u; auto; discriminate|]. split.
      * destruct G as [[G1 G2]|[G1 G2]]; [left|right]; (split; auto); vu t w; auto; [congruence|discriminate].
      * intros u. vu t u; [auto|apply K].
    + (* load data *)
      destruct y.
      * destruct I as (A & B & D). destruct (D t) as [_ X]. rewrite H in X. discriminate.
      * destruct I as (A & B & D & _). specialize (D t). rewrite H in D. discriminate.
      * destruct I as (w & v' & A & B & D & E & F & G & K). exists w, v'. split; auto. split; auto. split; auto.
        split; [intros u; vu t u; auto|]. split; [intros u; vu t u; auto; discriminate|]. split.
        -- destruct G as [[G1 G2]|[G1 G2]]; [left|right]; (split; auto); vu t w; auto; [congruence|discriminate].
        -- intros u. vu t u; [|apply K]. specialize (K t). rewrite H in K. subst. destruct v'; cbn in *; congruence.
    + (* load returns *)
      destruct r as [g|].
      * destruct y.
        -- destruct I as (A & B & D). destruct (D t) as [_ X]. rewrite H in X. discriminate.
        -- destruct I as (A & B & D & _). specialize (D t). rewrite H in D. discriminate.
        -- destruct I as (w & v' & A & B & D & E & F & G & K). exists w, v'. split; auto. split; auto. split; auto.
           split; [intros u; vu t u; auto|]. split; [intros u; vu t u; auto; discriminate|]. split.
           ++ destruct G as [[G1 G2]|[G1 G2]]; [left|right]; (split; auto); vu t w; auto; [congruence|discriminate].
           ++ intros u. vu t u; [auto|apply K].
      * pose proof (harmless_step tr (VLoadRet t None) y d p t VIdle eq_refl eq_refl) as HS. rewrite H in HS.
        specialize (HS eq_refl eq_refl I). unfold vinv in HS. cbn [typ dat vpcs] in HS. rewrite commits_app, vtruers_app in HS. cbn [commits vtruers] in HS.
        rewrite !app_nil_r in HS. exact HS.
Qed.

(** At most one Write returns true, and it is the one whose value was stored. *)
Theorem C43_one : forall tr s, vexec tr s -> (length (commits tr) <= 1)%nat /\
  (vtruers tr = [] \/ exists w v, vtruers tr = [w] /\ commits tr = [(w, v)]) /\
  (forall t b, In (VReturn t b) tr -> commits tr <> []).
Proof.
  intros tr s H. pose proof (vinv_exec _ _ H) as I. split; [|split].
  - unfold vinv in I. destruct (typ s).
    + destruct I as (-> & _). cbn. lia.
    + destruct I as (-> & _). cbn. lia.
    + destruct I as (w & v & -> & _). cbn. lia.
  - unfold vinv in I. destruct (typ s); try (left; apply I).
    destruct I as (w & v & A & _ & _ & _ & _ & [[G _]|[G _]] & _); eauto.
  - clear I. revert tr s H. apply (exec_ind_inv _ _ (fun tr s => forall t b, In (VReturn t b) tr -> commits tr <> [])).
    + intros s _ t b [].
    + intros tr s l s' Hex IH St t b X. rewrite commits_app. rewrite in_snoc in X. destruct X as [X|X].
      * specialize (IH _ _ X). destruct (commits tr); [congruence|discriminate].
      * subst l. pose proof (vinv_exec _ _ Hex) as I. inversion St; subst. unfold vinv in I. cbn [typ vpcs] in I.
        assert (E : p t = VRet b) by assumption. destruct y.
        -- destruct I as (_ & _ & D). destruct (D t) as [_ D2]. rewrite E in D2. discriminate.
        -- destruct I as (_ & _ & D & _). specialize (D t). rewrite E in D. discriminate.
        -- destruct I as (w & v & -> & _). discriminate.
Qed.

Definition reading (p : vpc) : bool := match p with LBegin | LData _ | LRet (Some _) => true | _ => false end.

Lemma step_reading : forall sa l sb t n, vstep sa l sb -> typ sa = Ty n -> reading (vpcs sa t) = true ->
  (forall r, l <> VLoadRet t r) -> (exists n', typ sb = Ty n') /\ reading (vpcs sb t) = true.
Proof.
  intros sa l sb t n St T R N.
  inversion St; subst; cbn [typ vpcs] in *; try discriminate; (split; [eauto|]); unfold upd;
    match goal with |- context [Nat.eqb ?u t] => destruct (Nat.eqb_spec u t) as [E|E]; [subst u|auto] end;
    match goal with E : _ t = _ |- _ => rewrite E in R end; try discriminate; auto.
  - exfalso. match goal with F : forall n, _ <> Ty n |- _ => now apply (F n) end.
  - exfalso. now apply (N r).
Qed.

Lemma in_commits : forall w v tr, In (w, v) (commits tr) <-> In (VCommit w v) tr.
Proof.
  intros w v. induction tr as [|l tr IH]; [cbn; tauto|].
  destruct l; cbn [commits In]; rewrite <- IH; split; intros X; try (right; exact X); try (destruct X as [X|X]; [discriminate|exact X]).
  - destruct X as [X|X]; [left; congruence|auto].
  - destruct X as [X|X]; [left; congruence|auto].
Qed.

(** Every Value() call returns nil or the one stored value: nil if nothing was stored
    before it returned, the value if it was stored before the call. *)
Theorem C43_value : forall tr1 t tr2 r tr3 s,
  vexec (tr1 ++ VLoadCall t :: tr2 ++ VLoadRet t r :: tr3) s -> (forall r', ~ In (VLoadRet t r') tr2) ->
  (forall w v, In (VCommit w v) tr1 -> r = Some v) /\
  (forall g, r = Some g -> exists w, In (VCommit w g) (tr1 ++ tr2)).
Proof.
  intros tr1 t tr2 r tr3 s H NR.
  apply exec_app_inv in H. destruct H as (s1 & H1 & R1). apply steps_cons_inv in R1. destruct R1 as (s2 & St2 & R2).
  apply steps_app_inv in R2. destruct R2 as (s3 & R2 & R3). apply steps_cons_inv in R3. destruct R3 as (s4 & St4 & _).
  assert (H3 : vexec (tr1 ++ VLoadCall t :: tr2) s3).
  { destruct H1 as (s0 & Hi & R0). exists s0. split; auto. eapply steps_app; eauto. eapply steps_cons; eauto. }
  pose proof (vinv_exec _ _ H3) as I3. pose proof (vinv_exec _ _ H1) as I1.
  assert (P3 : vpcs s3 t = LRet r) by (inversion St4; subst; auto).
  assert (V3 : forall g, r = Some g -> exists w, In (w, g) (commits (tr1 ++ VLoadCall t :: tr2))).
  { intros g ->. unfold vinv in I3. destruct (typ s3).
    - destruct I3 as (_ & _ & D). destruct (D t) as [_ D2]. rewrite P3 in D2. discriminate.
    - destruct I3 as (_ & _ & D & _). specialize (D t). rewrite P3 in D. discriminate.
    - destruct I3 as (w & v & A & _ & _ & _ & _ & _ & K). specialize (K t). rewrite P3 in K. subst. exists w. rewrite A. cbn. auto. }
  split.
  - intros w v X.
    assert (T1 : exists n, typ s1 = Ty n).
    { unfold vinv in I1. apply in_commits in X. destruct (typ s1); [destruct I1 as (E & _)|destruct I1 as (E & _)|eauto]; rewrite E in X; destruct X. }
    assert (G : (exists n, typ s3 = Ty n) /\ reading (vpcs s3 t) = true).
    { clear St4 H3 I3 P3 V3. induction R2 as [|tr sa l sb R IH St].
      - inversion St2; subst. cbn in *. split; auto. now rewrite upd_same.
      - destruct IH as [(n & Tn) P]. { intros r' Y. apply (NR r'). rewrite in_snoc. auto. }
        eapply step_reading; eauto. intros r' ->. apply (NR r'). rewrite in_snoc. auto. }
    destruct G as [_ G]. rewrite P3 in G. destruct r as [g|]; [|discriminate].
    destruct (V3 g eq_refl) as (w' & Y).
    assert (X' : In (w, v) (commits (tr1 ++ VLoadCall t :: tr2))) by (apply in_commits; apply in_or_app; auto).
    destruct (C43_one _ _ H3) as (L & _). destruct (commits (tr1 ++ VLoadCall t :: tr2)) as [|c [|c' cs]]; cbn in *; try contradiction; try lia.
    destruct X' as [->|[]], Y as [Y|[]]. congruence.
  - intros g E. destruct (V3 g E) as (w & Y). exists w. apply in_commits in Y. apply in_app_or in Y. apply in_or_app.
    destruct Y as [Y|[Y|Y]]; auto. discriminate.
Qed.

(** When all Write calls pass non-nil values of one type, none panics, and once every call
    has returned exactly one of them returned true. *)
Definition uniform (tr : list vlabel) : Prop := exists n, forall t v, In (VCall t v) tr -> exists g, v = Some g /\ vty g = n.

Definition pcok (n : nat) (p : vpc) : Prop :=
  match p with
  | VEnter None | VDead => False
  | VEnter (Some g) | VLoop g | VCas g | VStoreData g | VStoreType g => vty g = n
  | _ => True
  end.

Lemma pc_values : forall n tr s, vexec tr s -> (forall t v, In (VCall t v) tr -> exists g, v = Some g /\ vty g = n) ->
  (forall t, pcok n (vpcs s t)) /\ (forall m, typ s = Ty m -> m = n) /\ (forall t, ~ In (VPanic t) tr).
Proof.
  intros n. apply (exec_ind_inv _ _ (fun tr s => (forall t v, In (VCall t v) tr -> exists g, v = Some g /\ vty g = n) ->
    (forall t, pcok n (vpcs s t)) /\ (forall m, typ s = Ty m -> m = n) /\ (forall t, ~ In (VPanic t) tr))).
  - intros s (A & B) _. split; [intros t; rewrite B; exact I|]. split; [congruence|]. intros t [].
  - intros tr s l s' Hex IH St U.
    assert (U' : forall t v, In (VCall t v) tr -> exists g, v = Some g /\ vty g = n) by (intros; apply (U t); rewrite in_snoc; auto).
    destruct (IH U') as (P & T & NP). clear IH.
    assert (NP' : (forall t, l <> VPanic t) -> forall t, ~ In (VPanic t) (tr ++ [l])).
    { intros N t X. rewrite in_snoc in X. destruct X as [X|X]; [now apply (NP t)|now apply (N t)]. }
    inversion St; subst; cbn [typ vpcs] in *; pose proof (P t) as Pt;
      match goal with E : ?q ?u = _, Y : pcok _ (?q ?u) |- _ => rewrite E in Y end; cbn [pcok] in Pt; try contradiction;
      try (split; [intros u; vu t u; cbn; auto|split; [auto|apply NP'; discriminate]]; fail).
    + split; [|split; [auto|apply NP'; discriminate]]. intros u. vu t u; auto.
      destruct (U t v) as (g & -> & E); [rewrite in_snoc; auto|]. exact E.
    + exfalso. specialize (T _ eq_refl). congruence.
    + split; [intros u; vu t u; cbn; auto|]. split; [discriminate|apply NP'; discriminate].
    + split; [intros u; vu t u; cbn; auto|]. split; [|apply NP'; discriminate]. intros m E. inversion E. congruence.
Qed.

Theorem C43_no_panic : forall tr s, vexec tr s -> uniform tr -> forall t, ~ In (VPanic t) tr.
Proof. intros tr s H (n & U). apply (pc_values n tr s H U). Qed.

Theorem C43_exactly_one : forall tr s t v, vexec tr s -> uniform tr -> In (VCall t v) tr -> (forall u, vpcs s u = VIdle) ->
  exists w g, vtruers tr = [w] /\ commits tr = [(w, g)].
Proof.
  intros tr s t v H (n & U) Hc Idle.
  assert (C : commits tr <> []).
  { intros E.
    assert (G : forall tr s, vexec tr s -> (forall t v, In (VCall t v) tr -> exists g, v = Some g /\ vty g = n) -> commits tr = [] ->
      forall t v, In (VCall t v) tr -> match vpcs s t with VEnter _ | VLoop _ | VCas _ | VStoreData _ | VStoreType _ => True | _ => False end).
    { clear. apply (exec_ind_inv _ _ (fun tr s => (forall t v, In (VCall t v) tr -> exists g, v = Some g /\ vty g = n) -> commits tr = [] ->
      forall t v, In (VCall t v) tr -> match vpcs s t with VEnter _ | VLoop _ | VCas _ | VStoreData _ | VStoreType _ => True | _ => False end)).
      - intros s _ _ _ t v [].
      - intros tr s l s' Hex IH St U C t v X. rewrite commits_app in C. apply app_eq_nil in C. destruct C as [C1 C2].
        assert (U' : forall t v, In (VCall t v) tr -> exists g, v = Some g /\ vty g = n) by (intros; apply (U t0); rewrite in_snoc; auto).
        specialize (IH U' C1 t v). rewrite in_snoc in X. destruct X as [X|X].
        + specialize (IH X). pose proof (vinv_exec _ _ Hex) as Iv. destruct (pc_values n _ _ Hex U') as (P & _ & _).
          assert (NT : forall m, typ s <> Ty m). { intros m Em. unfold vinv in Iv. rewrite Em in Iv. destruct Iv as (w & g & Cw & _). congruence. }
          inversion St; subst; cbn [typ vpcs] in *; try discriminate; try (exfalso; eapply NT; reflexivity);
            (vu t0 t; auto); match goal with E : _ ?u = _ |- _ => pose proof (P u) as Pu; rewrite E in Pu, IH end; auto; try contradiction.
        + subst l. inversion St; subst. cbn. now rewrite upd_same. }
    specialize (G _ _ H U E _ _ Hc). rewrite Idle in G. exact G. }
  pose proof (vinv_exec _ _ H) as I. unfold vinv in I. destruct (typ s); try (destruct I as (I & _); congruence).
  destruct I as (w & g & A & _ & _ & _ & _ & [[_ G]|[G _]] & _); [rewrite Idle in G; discriminate|]. eauto.
Qed.

(** Writing nil panics; writing a value of another type after a successful write panics
    instead of returning false. *)
Theorem C43_panics_refuted : exists tr s, vexec tr s /\ In (VReturn 0 true) tr /\ In (VPanic 1) tr /\ In (VPanic 2) tr /\
  In (VCall 1 (Some (GV 2 7))) tr /\ In (VCall 2 None) tr.
Proof.
  exists [VCall 0 (Some (GV 1 5)); VTau 0; VTau 0; VTau 0; VTau 0; VCommit 0 (GV 1 5); VReturn 0 true;
    VCall 1 (Some (GV 2 7)); VTau 1; VPanic 1; VCall 2 None; VPanic 2].
  eexists. split; [|cbn; tauto].
  exists (VS TyNil 0 (fun _ => VIdle)). split; [repeat split|].
  run (eapply VSCall; reflexivity). run (eapply VSEnter; reflexivity). run (eapply VSLoadNil; reflexivity).
  run (eapply VSCasOk; reflexivity). run (eapply (VSData _ _ _ 0); reflexivity). run (eapply VSType; reflexivity).
  run (eapply VSRet; reflexivity). run (eapply VSCall; reflexivity). run (eapply (VSEnter _ _ _ 1); reflexivity).
  run (eapply (VSLoadOther _ _ 1); [reflexivity|discriminate]). run (eapply VSCall; reflexivity). run (eapply VSNil; reflexivity).
  constructor.
Qed.

(** Two goroutines write the same type, one wins, a reader sees nil and then the value. *)
Example C43_ex : exists s, vexec
  [VCall 0 (Some (GV 1 5)); VTau 0; VCall 1 (Some (GV 1 6)); VTau 1; VTau 0; VTau 1; VTau 0; VLoadCall 2; VTau 2; VLoadRet 2 None;
   VTau 1; VTau 0; VTau 1; VCommit 0 (GV 1 5); VReturn 0 true; VTau 1; VReturn 1 false; VLoadCall 2; VTau 2; VTau 2; VLoadRet 2 (Some (GV 1 5))] s.
Proof.
  eexists. exists (VS TyNil 0 (fun _ => VIdle)). split; [repeat split|].
  run (eapply VSCall; reflexivity). run (eapply (VSEnter _ _ _ 0); reflexivity).
  run (eapply VSCall; reflexivity). run (eapply (VSEnter _ _ _ 1); reflexivity).
  run (eapply (VSLoadNil _ _ 0); reflexivity). run (eapply (VSLoadNil _ _ 1); reflexivity). run (eapply (VSCasOk _ _ 0); reflexivity).
  run (eapply VSLCall; reflexivity). run (eapply VSLNil; [reflexivity|discriminate]). run (eapply VSLRet; reflexivity).
  run (eapply (VSCasFail _ _ _ 1); [reflexivity|discriminate]). run (eapply (VSData _ _ _ 0); reflexivity). run (eapply (VSLoadProg _ _ 1); reflexivity).
  run (eapply VSType; reflexivity). run (eapply VSRet; reflexivity).
  run (apply (VSLoadSame 5 _ 1 (GV 1 6)); reflexivity). run (eapply VSRet; reflexivity).
  run (eapply VSLCall; reflexivity). run (eapply VSLTy; reflexivity). run (eapply VSLData; reflexivity). run (eapply VSLRet; reflexivity).
  constructor.
Qed.

Print Assumptions C43_one. Print Assumptions C43_value. Print Assumptions C43_exactly_one. Print Assumptions C43_no_panic.
Print Assumptions C43_panics_refuted.
