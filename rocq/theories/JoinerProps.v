(** * Properties C20-C22 *)
From Coq Require Import ZArith List Bool Lia.
From Verif Require Import GoBase Utf8Model Utf8Spec JoinerModel JoinerSpec.
Import ListNotations.
Open Scope Z_scope.

(** The bytes a write call passes in; None for Grow and Reset. *)
Definition argument (o : jop) : option str :=
  match o with
  | OWriteRune r => Some (encode r)
  | OWriteString s => Some s
  | OWriteByte b => Some [b]
  | OWrite p => Some p
  | _ => None
  end.

Definition is_write (o : jop) : Prop := match o with OGrow _ | OReset => False | _ => True end.

(** The options in force: the last option setting each field wins. *)
Lemma C20_options : forall os p st su,
  let op := opts (NewJoiner os) in
  opts (NewJoiner []) = JO [] [] [] /\
  opts (NewJoiner (os ++ [WithJoinerStep st])) = JO (o_prefix op) st (o_suffix op) /\
  opts (NewJoiner (os ++ [WithJoinerPrefix p])) = JO p (o_step op) (o_suffix op) /\
  opts (NewJoiner (os ++ [WithJoinerSuffix su])) = JO (o_prefix op) (o_step op) su /\
  opts (NewJoiner (os ++ [WithJoiner p st su])) = JO p st su.
Proof. intros. unfold NewJoiner. cbn [opts]. rewrite !fold_left_app. repeat split. Qed.

Section Runtime.
  Variable newcap : Z -> Z -> Z -> Z.
  Notation run := (run newcap).
  Notation do_op := (do_op newcap).

  Lemma write_step : forall j o p, argument o = Some p -> do_op j o = fst (write newcap j p).
  Proof. intros j o p H; destruct o; inversion H; reflexivity. Qed.

  Lemma do_op_opts : forall j o, opts (do_op j o) = opts j /\ jn (do_op j o) = jn j.
  Proof. intros j []; simpl; auto. unfold Grow. destruct (b_grow _ _ _); auto. Qed.

  Lemma run_opts : forall os j, opts (run j os) = opts j /\ jn (run j os) = jn j.
  Proof.
    induction os as [|o os IH]; intros j; [auto|]. change (run j (o :: os)) with (run (do_op j o) os).
    destruct (IH (do_op j o)) as [-> ->]. apply do_op_opts.
  Qed.

  Definition content (j : Joiner) : str := match jb j with None => [] | Some b => buf b end.

  Lemma content_write : forall j p, content (fst (write newcap j p)) =
    match jb j with None => p | Some _ => content j ++ o_step (opts j) ++ p end.
  Proof.
    intros j p. unfold write, content, tryWriteStep. simpl. destruct (jb j); simpl; auto. now rewrite <- app_assoc.
  Qed.

  Lemma join_snoc : forall sep l p, l <> [] -> join sep (l ++ [p]) = join sep l ++ sep ++ p.
  Proof.
    induction l as [|x l IH]; intros p H; [easy|]. destruct l as [|y l]; [reflexivity|].
    change ((x :: y :: l) ++ [p]) with (x :: (y :: l) ++ [p]). cbn [join].
    destruct ((y :: l) ++ [p]) as [|z t] eqn:E; [destruct l; discriminate|]. rewrite <- E.
    rewrite IH by easy. now rewrite <- !app_assoc.
  Qed.

  (** Histories of writes: the content is the join of the pieces. *)
  Theorem C20_join : forall options os ps, map argument os = map Some ps ->
    let o := opts (NewJoiner options) in
    String (run (NewJoiner options) os) = o_prefix o ++ join (o_step o) ps ++ o_suffix o.
  Proof.
    intros options os ps H o. set (j := NewJoiner options) in *.
    assert (G : content (run j os) = join (o_step o) ps /\ (ps <> [] <-> jb (run j os) <> None)).
    { revert ps H. induction os as [|a os IH] using rev_ind; intros ps H.
      - destruct ps; [|discriminate]. unfold JoinerModel.run. simpl. split; auto. split; intros X; contradiction X; auto.
      - destruct ps as [|p ps _] using rev_ind. { rewrite map_app in H. destruct os; discriminate. }
        rewrite !map_app in H. apply app_inj_tail in H. destruct H as [H1 H2]. destruct (IH ps H1) as [C N].
        unfold JoinerModel.run in *. rewrite fold_left_app. cbn [fold_left]. rewrite (write_step _ a p H2), content_write.
        assert (Os : opts (fold_left do_op os j) = o) by apply run_opts. rewrite Os, C.
        split; [|split; intros _; [discriminate|destruct ps; discriminate]].
        destruct (jb (fold_left do_op os j)) as [b|] eqn:Eb.
        + rewrite join_snoc; auto. apply N. discriminate.
        + destruct ps; [reflexivity|]. exfalso. apply (proj1 N); [discriminate|reflexivity]. }
    destruct G as [G _]. unfold String. fold (content (run j os)). rewrite G.
    assert (opts (run j os) = o) as -> by apply run_opts. reflexivity.
  Qed.

  (** Every history: the text written since the last Reset, where a step precedes a
      write unless that write is the very first Grow or write of the Joiner.
      [pieces] is computed from the history alone. *)
  Fixpoint pieces (started : bool) (os : list jop) (acc : list str) : list str :=
    match os with
    | [] => acc
    | OReset :: os' => pieces started os' (if started then [[]] else [])
    | OGrow _ :: os' => pieces true os' (if started then acc else [[]])
    | o :: os' => pieces true os' (acc ++ match argument o with Some p => [p] | None => [] end)
    end.

  Theorem C20_general : forall options os,
    let o := opts (NewJoiner options) in
    String (run (NewJoiner options) os) = o_prefix o ++ join (o_step o) (pieces false os []) ++ o_suffix o.
  Proof.
    intros options os o. set (j := NewJoiner options) in *.
    assert (G : forall os j0 acc, opts j0 = o -> content j0 = join (o_step o) acc -> 
      (jb j0 <> None <-> acc <> []) ->
      content (run j0 os) = join (o_step o) (pieces (match jb j0 with None => false | _ => true end) os acc)).
    { clear os. induction os as [|a os IH]; intros j0 acc Ho Hc Hn; [exact Hc|].
      change (run j0 (a :: os)) with (run (do_op j0 a) os).
      assert (Wr : forall p, argument a = Some p ->
        content (run (do_op j0 a) os) = join (o_step o) (pieces true os (acc ++ [p]))).
      { intros p Hp. rewrite (write_step _ a p Hp). rewrite (IH _ (acc ++ [p])); auto.
        - rewrite content_write, Ho, Hc. destruct (jb j0) as [b|] eqn:E.
          + rewrite join_snoc; auto. apply Hn. discriminate.
          + destruct acc; [reflexivity|]. exfalso. destruct Hn as [_ Hn]. apply Hn; [discriminate|reflexivity].
        - split; intros _; [destruct acc|]; discriminate. }
      destruct a as [r|s|b|p|n|]; cbn [pieces argument]; try (apply Wr; reflexivity).
      - assert (Ho' : opts (do_op j0 (OGrow n)) = o) by (rewrite (proj1 (do_op_opts j0 _)); auto).
        assert (Hb : exists b, jb (do_op j0 (OGrow n)) = Some b /\ buf b = content j0).
        { simpl. unfold Grow, content, b_grow. destruct (jb j0) as [b|]; destruct (n <? 0); simpl; eauto. }
        destruct Hb as (b & Hb & Hbuf).
        rewrite (IH _ (if match jb j0 with None => false | _ => true end then acc else [[]])); auto.
        + now rewrite Hb.
        + unfold content at 1. rewrite Hb, Hbuf, Hc. destruct (jb j0) eqn:E; auto.
          destruct acc; auto. exfalso. destruct Hn as [_ Hn]. apply Hn; [discriminate|reflexivity].
        + rewrite Hb. split; [|discriminate]. intros _. destruct (jb j0) eqn:E; [|discriminate]. apply Hn. discriminate.
      - rewrite (IH _ (if match jb j0 with None => false | _ => true end then [[]] else [])).
        + simpl. destruct (jb j0); reflexivity.
        + exact Ho.
        + unfold content. simpl. destruct (jb j0); reflexivity.
        + simpl. destruct (jb j0); split; auto; discriminate. }
    unfold String. fold (content (run j os)).
    rewrite (G os j []); auto.
    - assert (opts (run j os) = o) as -> by apply run_opts. reflexivity.
    - simpl. split; intros X; contradiction X; auto.
  Qed.

  (** A Grow before the first write, or a Reset between writes, leaves a leading step. *)
  Theorem C20_leading_step_refuted : forall st p, 
    let j := NewJoiner [WithJoinerStep st] in
    String (run j [OGrow 10; OWriteString p]) = st ++ p /\
    String (run j [OWriteString p; OReset; OWriteString p]) = st ++ p.
  Proof.
    intros st p j. subst j. rewrite !C20_general. cbn. now rewrite !app_nil_r.
  Qed.

  (** ** C21 *)

  Theorem C21_len : forall options os, Len (run (NewJoiner options) os) = zlen (String (run (NewJoiner options) os)).
  Proof.
    intros options os. set (j := NewJoiner options). unfold Len, String. destruct (run_opts os j) as [E1 E2].
    rewrite E1, E2. rewrite !zlen_app. unfold j. cbn [jn NewJoiner opts].
    destruct (jb _); [|rewrite zlen_nil]; lia.
  Qed.

  (** The runtime never allocates less than asked for. *)
  Hypothesis newcap_enough : forall len cap need, need <= newcap len cap need.

  Definition cap_ok (j : Joiner) : Prop :=
    match jb j with None => True | Some b => zlen (buf b) <= bcap b end.

  Lemma cap_append : forall b p, zlen (buf b) <= bcap b -> zlen (buf (b_append newcap b p)) <= bcap (b_append newcap b p).
  Proof.
    intros b p H. unfold b_append. cbn [buf bcap]. rewrite zlen_app. destruct (_ <=? _) eqn:E.
    - apply Z.leb_le in E. lia.
    - apply newcap_enough.
  Qed.

  Lemma cap_do_op : forall j o, cap_ok j -> cap_ok (do_op j o).
  Proof.
    intros j o H.
    assert (Wr : forall p, cap_ok (fst (write newcap j p))).
    { intros p. unfold cap_ok, write, tryWriteStep. cbn [jb fst]. apply cap_append. unfold cap_ok in H.
      destruct (jb j) as [b|]; [now apply cap_append|]. unfold b_empty. cbn. reflexivity. }
    destruct o; try apply Wr.
    - unfold cap_ok in *. cbn [JoinerModel.do_op]. unfold Grow, b_grow. destruct (n <? 0) eqn:En; cbn [fst jb].
      + destruct (jb j); auto. unfold b_empty. cbn. reflexivity.
      + apply Z.ltb_ge in En. destruct (jb j) as [b|]; cbn [buf bcap b_empty].
        * destruct (_ <? _); auto. pose proof (newcap_enough (zlen (buf b)) (bcap b) (2 * bcap b + n)).
          pose proof (zlen_nonneg (buf b)). lia.
        * rewrite zlen_nil. destruct (_ <? _); [|lia]. pose proof (newcap_enough 0 0 (2 * 0 + n)). lia.
    - unfold cap_ok in *. cbn. destruct (jb j); auto. cbn. reflexivity.
  Qed.

  Theorem C21_cap : forall options os, let j := run (NewJoiner options) os in
    Len j <= Cap j /\ (forall n, 0 <= n -> let j' := do_op j (OGrow n) in
       Len j' = Len j /\ n <= Cap j' - Len j').
  Proof.
    intros options os j.
    assert (H : cap_ok j).
    { unfold j, JoinerModel.run. assert (G : forall l j0, cap_ok j0 -> cap_ok (fold_left do_op l j0)).
      { induction l; intros j0 H; auto. cbn. apply IHl. now apply cap_do_op. }
      apply G. exact I. }
    unfold cap_ok in H. split.
    - unfold Len, Cap. destruct (jb j); lia.
    - intros n Hn. cbn [JoinerModel.do_op]. unfold Grow, b_grow. destruct (n <? 0) eqn:E; [apply Z.ltb_lt in E; lia|].
      unfold Len, Cap. cbn [fst jb jn]. destruct (jb j) as [b|]; cbn [buf bcap b_empty].
      + split; [reflexivity|]. destruct (bcap b - zlen (buf b) <? n) eqn:F; [|apply Z.ltb_ge in F; lia].
        pose proof (newcap_enough (zlen (buf b)) (bcap b) (2 * bcap b + n)). pose proof (zlen_nonneg (buf b)). lia.
      + rewrite zlen_nil. split; [lia|]. destruct (0 - 0 <? n) eqn:F; [|apply Z.ltb_ge in F; lia].
        pose proof (newcap_enough 0 0 (2 * 0 + n)). lia.
  Qed.

  Theorem C21_counts : forall j r s b p,
    snd (WriteRune newcap j r) = zlen (encode r) /\ snd (WriteString newcap j s) = zlen s /\
    snd (WriteByte newcap j b) = 1 /\ snd (Write newcap j p) = zlen p.
  Proof. repeat split. Qed.

  (** Grow panics exactly for negative arguments. *)
  Theorem C21_grow_panics : forall j n, snd (Grow newcap j n) = Panic <-> n < 0.
  Proof.
    intros j n. unfold Grow, b_grow. destruct (n <? 0) eqn:E; cbn [snd].
    - apply Z.ltb_lt in E. tauto.
    - apply Z.ltb_ge in E. split; [discriminate|lia].
  Qed.
End Runtime.

Definition exact (len cap need : Z) : Z := need.
Example C20_ex : String (run exact (NewJoiner [WithJoiner [91] [44;32] [93]])
    [OWriteString [97]; OWriteRune 233; OWriteByte 98]) = [91; 97; 44;32; 195;169; 44;32; 98; 93] /\
  (forall len cap need, need <= exact len cap need).
Proof. split; [reflexivity|]. intros; unfold exact; lia. Qed.

(** ** C22 *)

Section Errors.
  Variable error : Type.
  Variable message : error -> str.
  Variable newcap : Z -> Z -> Z -> Z.

  Definition batch (es : list (option error)) : BatchError error := fold_left Add es zeroBatch.

  Lemma batch_errs : forall es, errs (batch es) = somes es.
  Proof.
    intros es. assert (G : forall (es : list (option error)) b, errs (fold_left Add es b) = errs b ++ somes es).
    { induction es0 as [|[e|] es0 IH]; intros b; simpl; [now rewrite app_nil_r| |apply IH].
      rewrite IH. simpl. now rewrite <- app_assoc. }
    apply G.
  Qed.

  Theorem C22_err : forall es,
    (somes es = [] -> Err (batch es) = ENil) /\
    (forall e, somes es = [e] -> Err (batch es) = ESingle e) /\
    ((2 <= length (somes es))%nat ->
       errv_message error message newcap (Err (batch es)) = Some (join [10] (map message (somes es)))) /\
    (NotNil (batch es) = true <-> Err (batch es) <> ENil) /\
    (Err (batch es) = ENil <-> forall x, In x es -> x = None).
  Proof.
    intros es. unfold Err, NotNil. rewrite batch_errs.
    assert (S0 : somes es = [] <-> forall x, In x es -> x = None).
    { induction es as [|[e|] es IH]; simpl.
      - split; auto. intros _ x [].
      - split; [discriminate|]. intros H. specialize (H (Some e) (or_introl eq_refl)). discriminate.
      - rewrite IH. split; [intros H x [<-|Hx]; auto|auto]. }
    split; [intros ->; auto|]. split; [intros e ->; auto|]. split; [|split].
    - intros L. destruct (somes es) as [|a [|b l]] eqn:E; simpl in L; try lia.
      cbn [errv_message]. f_equal. unfold errorArray_Error.
      assert (F : forall l j, fold_left (fun j e => fst (WriteString newcap j (message e))) l j =
        run newcap j (map (fun e => OWriteString (message e)) l)).
      { induction l0 as [|x l0 IH]; intros j; auto. simpl. rewrite IH. reflexivity. }
      rewrite F, (C20_join newcap [WithJoinerStep [10]] _ (map message (a :: b :: l))).
      + cbn [opts NewJoiner fold_left WithJoinerStep o_prefix o_step o_suffix]. now rewrite app_nil_l, app_nil_r.
      + rewrite !map_map. reflexivity.
    - destruct (somes es) as [|a [|b l]]; [split; [discriminate|congruence]| |]; (split; [discriminate|]; intros _; apply Z.ltb_lt; unfold zlen; cbn [length]; lia).
    - rewrite <- S0. destruct (somes es) as [|a [|b l]]; split; congruence.
  Qed.
End Errors.

Example C22_ex : forall newcap, errv_message nat (fun n => [Z.of_nat n]) newcap
  (Err (batch nat [Some 65%nat; None; Some 66%nat])) = Some [65; 10; 66].
Proof. reflexivity. Qed.

Print Assumptions C20_join. Print Assumptions C20_general. Print Assumptions C21_len.
Print Assumptions C21_cap. Print Assumptions C22_err.
