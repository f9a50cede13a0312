(** * C111: memory from xbytes.Malloc is handed from one user to the next without data races *)
From Coq Require Import ZArith List Bool Arith Lia.
From Verif Require Import GoBase Trans XBytesModel XBytesProps SyncSpec SyncProofs FeasSpec FeasProofs BytesSyncModel BytesSyncProofs.
Import ListNotations.
Open Scope Z_scope.

(** The runs are those of XBytesModel (which C87 derives from the calls of Malloc and Free step by step). *)
Theorem C111_runs : forall owned tr s, (exists s0, init s0 /\ steps (step owned) s0 tr s) <-> exists tr' T b, bruns owned tr' T b /\ plain tr' = tr /\ erase b = s.
Proof.
  intros owned tr s. split.
  - intros (s0 & I & R). exact (raised _ _ _ _ I R).
  - intros (tr' & T & b & R & <- & <-). exact (erased_run _ _ _ _ R).
Qed.
(** Callers use only what they hold and free it once: then no two accesses race, to the bytes or to the slices in the pools. *)
Theorem C111_race_free : forall tr T s, bruns true tr T s -> race_free T.
Proof. intros tr T s R. exact (v_race _ _ (V_all _ _ _ R)). Qed.
(** When Malloc returns, every earlier access to the memory it returns, up to its capacity, happens before. *)
Theorem C111_malloc : forall tr T s j t size capacity r, bruns true tr T s -> nth_error T j = Some (t, ALab (BMalloc size capacity (Ok r))) ->
  forall i u a c, (i < j)%nat -> nth_error T i = Some (u, a) -> touches a (PByte c) -> owns r c -> hb T i j.
Proof. intros tr T s j t size capacity r R. exact (v_new _ _ (V_all _ _ _ R) j t size capacity r). Qed.
(** The goroutine that holds a slice has seen every earlier access to its bytes. *)
Theorem C111_held : forall tr T s t x c i u a, bruns true tr T s -> In (HBy t, x) (blive s) -> owns x c -> nth_error T i = Some (u, a) -> touches a (PByte c) ->
  forall b, hb (T ++ [(t, b)]) i (length T).
Proof. intros tr T s t x c i u a R Hin Ho Hi Ht b. apply seen_next. destruct (v_byte _ _ (V_all _ _ _ R) _ _ _ _ Hi Ht) as (_ & B & _). exact (B _ _ Hin Ho). Qed.

(** ** The traces are possible: one value is sent on what stands for a Put or a handing over, and it is taken once. *)
Definition on_way (l : list (holder * slice_v)) : list nat := flat_map (fun e => match fst e with HWay k => [k] | HBy _ => [] end) l.
Definition numbers (s : bst) : list nat := map fst (bpool s) ++ on_way (blive s).
Record FB (T : list bev) (s : bst) : Prop := {
  fb_fe : feasible T;
  fb_dup : NoDup (numbers s);
  fb_new : forall k, (bnum s <= k)%nat -> none (ASend k) T /\ none (ARecv k) T;
  fb_num : forall k, In k (numbers s) -> (k < bnum s)%nat /\ some (ASend k) T /\ none (ARecv k) T;
  fb_close : forall k, none (AClose k) T
}.
Lemma on_way_app : forall a b, on_way (a ++ b) = on_way a ++ on_way b. Proof. intros. apply flat_map_app. Qed.
Lemma on_way_parts : forall t l, on_way (map (pair (HBy t)) l) = []. Proof. induction l as [|x l IH]; cbn; auto. Qed.
Lemma on_way_held : forall t r l, on_way (held_by t r l) = on_way l. Proof. intros t [s|] l; reflexivity. Qed.
Lemma dup_out : forall (a : list nat) k b, NoDup (a ++ k :: b) -> NoDup (a ++ b) /\ (forall x, In x (a ++ b) -> x <> k).
Proof. intros a k b H. split; [now apply NoDup_remove_1 in H|]. intros x Hx ->. now apply NoDup_remove_2 in H. Qed.
Lemma dup_in : forall (a : list nat) k b, NoDup (a ++ b) -> ~ In k (a ++ b) -> NoDup (a ++ k :: b).
Proof. intros a k b H N. apply (NoDup_Add (Add_app k a b)). auto. Qed.
Ltac fl := repeat (apply Forall_cons; [cbn [snd]; first [discriminate|intros Q9; injection Q9; intros; subst; first [lia|congruence]]|]); try apply Forall_nil.
(** A step that sends and takes nothing *)
Lemma FB_still : forall T s s' E, FB T s -> feasible (T ++ E) ->
  (forall k, Forall (fun e : bev => snd e <> ASend k /\ snd e <> ARecv k /\ snd e <> AClose k) E) -> NoDup (numbers s') -> (forall k, In k (numbers s') -> In k (numbers s)) -> (bnum s <= bnum s')%nat -> FB (T ++ E) s'.
Proof.
  intros T s s' E [Fe Fd Fn Fk Fc] Fe' Q Nd Sub Le. constructor; auto.
  - intros k Hk. destruct (Fn k) as [A B]; [lia|]. split; (apply none_app; [assumption|]); eapply Forall_impl; try exact (Q k); cbn; tauto.
  - intros k Hk. destruct (Fk k (Sub _ Hk)) as (A & B & C). split; [lia|]. split; [now apply some_app|]. apply none_app; [auto|]. eapply Forall_impl; [|exact (Q k)]; cbn; tauto.
  - intros k. apply none_app; [auto|]. eapply Forall_impl; [|exact (Q k)]; cbn; tauto.
Qed.
Ltac st := intros k9; repeat (apply Forall_cons; [cbn [snd]; repeat split; discriminate|]); apply Forall_nil.
Lemma FB_all : forall owned tr T s, bruns owned tr T s -> FB T s.
Proof.
  intros owned. apply (traced_ind_inv _ _ _ (fun _ T s => FB T s)).
  - intros s (h & ->). constructor; cbn; try (repeat constructor; fail); try contradiction.
  - intros tr T s [l E] s' R F St. pose proof F as [Fe Fd Fn Fk Fc]. unfold bs_step in St. cbn [fst snd] in St. unfold bs_acts. cbn [snd].
    destruct St; unfold numbers in *; cbn [bpool bnum blive] in *; rewrite ?map_app, ?on_way_app in *; cbn [map fst on_way flat_map app] in *.
    + rewrite <- app_assoc in *. cbn [app] in *. destruct (dup_out _ _ _ Fd) as [D1 D2]. destruct (Fk k (in_mid _ k _)) as (K1 & K2 & K3). constructor; unfold numbers; cbn [bpool bnum blive]; rewrite ?on_way_held, ?map_app, <- ?app_assoc.
      * apply fe_three; [auto|now apply m_recv|apply m_mem with (PVar k); left; now left|apply m_lab].
      * exact D1.
      * intros k' Hk'. destruct (Fn k' Hk') as [A B]. split; (apply none_app; [assumption|fl]).
      * intros k' Hk'. destruct (Fk k') as (A & B & C); [now apply in_around|]. split; [auto|]. split; [now apply some_app|]. apply none_app; [auto|]. specialize (D2 _ Hk'). fl.
      * intros k'. apply none_app; [auto|fl].
    + unfold var_new. destruct (malloc_key size capacity <? 0); cbn [app]; apply (FB_still T _ _ _ F); unfold numbers; cbn [bpool bnum blive]; rewrite ?on_way_held; auto;
        try st.
      * apply fe_one; [auto|apply m_lab].
      * apply fe_three; [auto|apply m_mem with (PVar n); right; now left|apply m_mem with (PVar n); left; now left|apply m_lab].
    + assert (N : ~ In n (map fst p ++ on_way l1 ++ on_way l2)) by (intros Hn; destruct (Fk n Hn); lia). destruct (Fn n (le_n n)) as [Sn Rn]. constructor; unfold numbers; cbn [bpool bnum blive map fst app]; rewrite ?on_way_app.
      * apply fe_three; [auto|apply m_lab|apply m_mem with (PVar n); right; now left|apply m_send]; repeat (apply none_snoc; [|discriminate]); auto.
      * now constructor.
      * intros k' Hk'. destruct (Fn k') as [A B]; [lia|]. split; (apply none_app; [assumption|fl]).
      * intros k' [<-|Hk']; [split; [lia|]; split; [apply some_in; do 2 apply Exists_cons_tl; now apply Exists_cons_hd|apply none_app; [auto|fl]]|].
        destruct (Fk k' Hk') as (A & B & C). split; [lia|]. split; [now apply some_app|]. apply none_app; [auto|fl].
      * intros k'. apply none_app; [auto|fl].
    + assert (N : ~ In n (map fst p ++ on_way l)) by (intros Hn; destruct (Fk n Hn); lia). destruct (Fn n (le_n n)) as [Sn Rn]. constructor; unfold numbers; cbn [bpool bnum blive map fst app].
      * apply fe_three; [auto|apply m_lab|apply m_mem with (PVar n); right; now left|apply m_send]; repeat (apply none_snoc; [|discriminate]); auto.
      * now constructor.
      * intros k' Hk'. destruct (Fn k') as [A B]; [lia|]. split; (apply none_app; [assumption|fl]).
      * intros k' [<-|Hk']; [split; [lia|]; split; [apply some_in; do 2 apply Exists_cons_tl; now apply Exists_cons_hd|apply none_app; [auto|fl]]|].
        destruct (Fk k' Hk') as (A & B & C). split; [lia|]. split; [now apply some_app|]. apply none_app; [auto|fl].
      * intros k'. apply none_app; [auto|fl].
    + rewrite <- app_assoc in *. cbn [app] in *. destruct (dup_out _ _ _ Fd) as [D1 D2].
      apply (FB_still T _ _ _ F); unfold numbers; cbn [bpool bnum blive]; rewrite ?map_app; cbn [map fst]; rewrite <- ?app_assoc; cbn [app]; auto; [now apply fe_end|intros; now apply in_around].
    + apply (FB_still T _ _ _ F); unfold numbers; cbn [bpool bnum blive]; rewrite ?on_way_app, ?on_way_parts; cbn [app]; auto. now apply fe_end.
    + apply (FB_still T _ _ _ F); unfold numbers; cbn [bpool bnum blive]; rewrite ?on_way_app; cbn [app]; auto. now apply fe_end.
    + apply (FB_still T _ _ _ F); unfold numbers; cbn [bpool bnum blive]; rewrite ?on_way_app; cbn [app]; auto; [|st].
      apply fe_one; [auto|]. apply m_mem with (PByte (cell_at s i)). right. now left.
    + apply (FB_still T _ _ _ F); unfold numbers; cbn [bpool bnum blive]; rewrite ?on_way_app; cbn [app]; auto; [|st].
      apply fe_one; [auto|]. apply m_mem with (PByte (cell_at s i)). left. now left.
    + rewrite app_assoc in *. assert (N : ~ In n ((map fst p ++ on_way l1) ++ on_way l2)) by (intros Hn; destruct (Fk n Hn); lia). destruct (Fn n (le_n n)) as [Sn Rn]. constructor; unfold numbers; cbn [bpool bnum blive]; rewrite ?on_way_app; cbn [on_way flat_map fst app]; rewrite ?app_assoc.
      * apply fe_one; [auto|apply m_send; auto].
      * now apply dup_in.
      * intros k' Hk'. destruct (Fn k') as [A B]; [lia|]. split; (apply none_app; [assumption|fl]).
      * intros k' Hk'. apply in_app_or in Hk'. destruct Hk' as [Hk'|[<-|Hk']]; [|split; [lia|]; split; [apply some_in; now apply Exists_cons_hd|apply none_app; [auto|fl]]|];
          (destruct (Fk k') as (A & B & C); [apply in_or_app; auto|]; split; [lia|]; split; [now apply some_app|]; apply none_app; [auto|fl]).
      * intros k'. apply none_app; [auto|fl].
    + rewrite app_assoc in *. destruct (dup_out _ _ _ Fd) as [D1 D2]. destruct (Fk k (in_mid _ k _)) as (K1 & K2 & K3). constructor; unfold numbers; cbn [bpool bnum blive]; rewrite ?on_way_app; cbn [on_way flat_map fst app]; rewrite ?app_assoc.
      * apply fe_one; [auto|now apply m_recv].
      * exact D1.
      * intros k' Hk'. destruct (Fn k' Hk') as [A B]. split; (apply none_app; [assumption|fl]).
      * intros k' Hk'. destruct (Fk k') as (A & B & C); [now apply in_around|]. split; [auto|]. split; [now apply some_app|]. apply none_app; [auto|]. specialize (D2 _ Hk'). fl.
      * intros k'. apply none_app; [auto|fl].
Qed.
Theorem C111_feasible : forall owned tr T s, bruns owned tr T s -> feasible T.
Proof. intros owned tr T s R. exact (fb_fe _ _ (FB_all _ _ _ _ R)). Qed.
Ltac onward H c := let H' := fresh in let G := fresh in
  (match type of H with traced _ ?st _ _ _ ?s => eassert (G : st s (_, _) _) by (unfold bs_step; cbn [fst snd]; c) end); pose proof (tr_snoc _ _ _ _ _ _ _ _ H G) as H'; clear H G; rename H' into H; unfold bs_acts in H; cbn [app snd fst length free_entry blk off slen scap map] in H.
(** Goroutine 0 writes into its slice and frees it; 1 gets the same memory, reads and hands it to 2, which writes. *)
Example C111_ex : exists tr T s x c j, bruns true tr T s /\ nth_error T j = Some (1%nat, ALab (BMalloc 2 4 (Ok x))) /\ owns x c /\ In (HBy 2, x) (blive s) /\
  (exists i, (i < j)%nat /\ nth_error T i = Some (0%nat, AWr (PByte c))) /\ (exists i, nth_error T i = Some (1%nat, ARd (PByte c))) /\ (exists i, nth_error T i = Some (2%nat, AWr (PByte c))).
Proof.
  assert (H : bruns true [] [] (BS [] 0 0 (fun _ => 0) [])) by (apply tr_nil; now eexists).
  onward H ltac:(apply (BNew true 0 _ _ _ _ _ 4 4 (Ok (SL 0 0 4 4))); reflexivity).
  onward H ltac:(apply (BWrite true 0 _ _ _ _ [] (SL 0 0 4 4) [] 1 7); cbn; lia).
  onward H ltac:(apply (BFreeOwned true 0 _ _ _ _ [] (SL 0 0 4 4) [])).
  onward H ltac:(apply (BReuse true 1 [] _ (SL 0 0 0 4) [] _ _ _ _ 2 4 (Ok (SL 0 0 2 4))); reflexivity).
  onward H ltac:(apply (BSRead true 1 _ _ _ _ [] (SL 0 0 2 4) [] 1); cbn; lia).
  onward H ltac:(apply (BSGive true 1 _ _ _ _ [] (SL 0 0 2 4) [])).
  onward H ltac:(apply (BSGet true 2 _ _ _ _ _ [] (SL 0 0 2 4) [])).
  onward H ltac:(apply (BWrite true 2 _ _ _ _ [] (SL 0 0 2 4) [] 1 8); cbn; lia).
  match type of H with traced _ _ _ _ ?x _ => let y := eval cbv in x in change x with y in H; set (T := y) in H end.
  eexists _, T, _, (SL 0 0 2 4), (0%nat, 1), 9%nat. split; [exact H|]. split; [reflexivity|]. split; [split; cbn; lia|]. split; [now left|].
  split; [exists 3%nat; split; [lia|reflexivity]|]. split; [exists 10%nat; reflexivity|exists 13%nat; reflexivity].
Qed.
(** If a slice is freed twice, two goroutines get the same memory, and what they do with it races. *)
Theorem C111_double_free_witness : exists tr T s, bruns false tr T s /\ ~ race_free T.
Proof.
  assert (H : bruns false [] [] (BS [] 0 0 (fun _ => 0) [])) by (apply tr_nil; now eexists).
  onward H ltac:(apply (BNew false 0 _ _ _ _ _ 1 1 (Ok (SL 0 0 1 1))); reflexivity).
  onward H ltac:(apply (BFreeOwned false 0 _ _ _ _ [] (SL 0 0 1 1) [])).
  onward H ltac:(apply (BFreeAny false 0 _ _ _ _ [] (SL 0 0 1 1)); cbn; auto; lia).
  onward H ltac:(apply (BReuse false 1 [] _ (SL 0 0 0 1) [_] _ _ _ _ 1 1 (Ok (SL 0 0 1 1))); reflexivity).
  onward H ltac:(apply (BReuse false 2 [] _ (SL 0 0 0 1) [] _ _ _ _ 1 1 (Ok (SL 0 0 1 1))); reflexivity).
  onward H ltac:(apply (BWrite false 1 _ _ _ _ [_] (SL 0 0 1 1) [] 0 7); cbn; lia).
  onward H ltac:(apply (BWrite false 2 _ _ _ _ [] (SL 0 0 1 1) [_] 0 8); cbn; lia).
  match type of H with traced _ _ _ _ ?x _ => let y := eval cbv in x in change x with y in H; set (T := y) in H end.
  eexists _, T, _. split; [exact H|]. clear H. intros RF.
  assert (Hh : hb T 15 16) by (apply (RF (PByte (0%nat, 0)) 15%nat 16%nat 1%nat 2%nat (AWr (PByte (0%nat, 0))) (AWr (PByte (0%nat, 0)))); [lia|reflexivity|reflexivity|lia|right; now left|right; now left|left; now left|tauto]).
  assert (Q : forall i j, hb T i j -> i = 15%nat -> False).
  { clear Hh. intros i j Hh. induction Hh as [i j t a b Hl Hi Hj|i j t u a b Hl Hi Hj Hp|i j t u a b x Hl Hi Hj Ha Hw _ _ _|i j c k Hl ((t & a & Hi & c9 & ->) & _)|i j c k n9 u Hl ((t & a & Hi & ->) & _)|i j k H1 I1 H2 I2]; [| | | | |exact I1]; intros ->; try discriminate.
    - injection Hi as <- <-. destruct j as [|j]; [lia|]. do 16 (destruct j as [|j]; [first [lia|discriminate Hj]|]). destruct j; discriminate Hj.
    - injection Hi as <- <-. inversion Hp.
    - injection Hi as <- <-. destruct Ha. }
  exact (Q _ _ Hh eq_refl).
Qed.
Print Assumptions C111_runs.
Print Assumptions C111_race_free.
Print Assumptions C111_malloc.
Print Assumptions C111_held.
Print Assumptions C111_feasible.
Print Assumptions C111_double_free_witness.
